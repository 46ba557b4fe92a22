(** Proofs about runs, their directories and the batch script. *)
From Coq Require Import Lia.
From Verif Require Import PAnalysisNames PCommand PConstruct.
From Verif Require Import SpecJobs.
From Coq Require Import List.
Import ListNotations.
Open Scope R_scope.
Open Scope string_scope.
Open Scope list_scope.

(** ** Decimal notation *)
Lemma show_int_inj a b : show_int a = show_int b -> a = b.
Proof.
  intros H. apply (f_equal NilZero.int_of_string) in H. unfold show_int in H.
  assert (N : forall z, Z.to_int z <> Pos Nil /\ Z.to_int z <> Neg Nil).
  { intros z. split; intros E; pose proof (DecimalZ.of_to z) as O; rewrite E in O; cbn in O; subst z; discriminate. }
  rewrite !NilZero.isi in H by apply N. injection H as H. now apply DecimalZ.to_int_inj.
Qed.
Definition intchar (c : ascii) : Prop := is_digit c = true \/ c = "-"%char.
Lemma uint_chars u : Forall (fun c => is_digit c = true) (L (NilZero.string_of_uint u)).
Proof. unfold NilZero.string_of_uint. destruct u; try apply digits_uint; repeat constructor; apply digits_uint. Qed.
Lemma int_chars z : Forall intchar (L (show_int z)).
Proof.
  unfold show_int. destruct (Z.to_int z) as [u|u]; cbn.
  - eapply Forall_impl; [|apply uint_chars]. intros; now left.
  - constructor; [now right|]. eapply Forall_impl; [|apply uint_chars]. intros; now left.
Qed.
Lemma int_free c z : is_digit c = false -> c <> "-"%char -> ~ occurs c (show_int z).
Proof. intros D N I. pose proof (int_chars z) as F. rewrite Forall_forall in F. destruct (F c I); congruence. Qed.
Lemma int_plain z : (0 <= z)%Z -> plain (show_int z).
Proof.
  intros P. assert (F : Forall (fun c => is_digit c = true) (L (show_int z)) /\ show_int z <> "").
  { unfold show_int. destruct z as [|p|p]; [split; [repeat constructor|discriminate]| |lia]. cbn [Z.to_int NilZero.string_of_int]. split; [apply uint_chars|].
    unfold NilZero.string_of_uint. destruct (Pos.to_uint p); discriminate. }
  destruct F as (F & NE). rewrite Forall_forall in F. split; [exact NE|]. split; [intros I; apply F in I; discriminate|]. split; [intros I; apply F in I; discriminate|].
  destruct (show_int z) as [|c s]; [congruence|]. specialize (F c (or_introl eq_refl)). cbn [String.prefix]. destruct (ascii_dec "-" c) as [<-|]; [discriminate|reflexivity].
Qed.

(** ** Splitting at the first or last separator *)
Lemma cut_first {A} (c : A) a a' x x' : ~ In c a -> ~ In c a' -> a ++ c :: x = a' ++ c :: x' -> a = a' /\ x = x'.
Proof.
  revert a'. induction a as [|y a IH]; intros [|y' a'] N N' E; cbn in *.
  - injection E as E. auto.
  - injection E as -> E. exfalso. apply N'. now left.
  - injection E as <- E. exfalso. apply N. now left.
  - injection E as -> E. destruct (IH a') as [-> ->]; [intros I; apply N; now right|intros I; apply N'; now right|exact E|auto].
Qed.
Lemma cut_last {A} (c : A) a a' x x' : ~ In c x -> ~ In c x' -> a ++ c :: x = a' ++ c :: x' -> a = a' /\ x = x'.
Proof.
  intros N N' E. apply (f_equal (@rev A)) in E. rewrite !rev_app_distr in E. cbn in E. rewrite <- !app_assoc in E. cbn in E.
  apply cut_first in E as [E1 E2]; [|rewrite <- in_rev; assumption..]. split; [rewrite <- (rev_involutive a), <- (rev_involutive a'); now rewrite E2|rewrite <- (rev_involutive x), <- (rev_involutive x'); now rewrite E1].
Qed.
Lemma last_slash a a' x x' : ~ occurs "/" x -> ~ occurs "/" x' -> (a ++ "/" ++ x)%string = (a' ++ "/" ++ x')%string -> a = a' /\ x = x'.
Proof.
  intros N N' E. apply (f_equal L) in E. rewrite !L_app in E. cbn in E. apply cut_last in E as [E1 E2]; auto. split; now apply L_inj.
Qed.
Lemma occurs_app c a b : occurs c (a ++ b)%string <-> occurs c a \/ occurs c b.
Proof. unfold occurs. now rewrite L_app, in_app_iff. Qed.
Lemma app_assoc_s (a b c : string) : ((a ++ b) ++ c)%string = (a ++ b ++ c)%string.
Proof. apply L_inj. now rewrite !L_app, app_assoc. Qed.
Ltac nofree := repeat (rewrite occurs_app); intros X; repeat (destruct X as [X|X]); try (eapply int_free; [| |exact X]; [reflexivity|discriminate]); try (cbn in X; intuition discriminate).

(** ** The directory of a run *)
Definition dir_of label (w s k : Z) dir : string := (dir ++ "/" ++ label ++ "/rngnum-" ++ show_int k ++ "/" ++ show_int w ++ "w_" ++ show_int s ++ "s")%string.
Definition label_of label (w s k : Z) : string := (label ++ "_" ++ show_int w ++ "w_" ++ show_int s ++ "s_rng" ++ show_int k)%string.
Lemma result_dir sf ns label w s k dir : run_is ns label w s k dir -> setup_result_dir sf ns = Ok (label_of label w s k, dir_of label w s k dir).
Proof.
  intros (A & B & C & D & E). unfold setup_result_dir. rewrite A. cbn [rbind need_str]. rewrite B. cbn [rbind]. rewrite C. cbn [rbind]. rewrite D. cbn [rbind]. rewrite E. cbn [rbind need_str show].
  unfold label_of, dir_of. do 2 f_equal. now rewrite !app_assoc_s.
Qed.
Lemma dir_inj l w s k d l' w' s' k' d' : ~ occurs "/" l -> ~ occurs "/" l' -> dir_of l w s k d = dir_of l' w' s' k' d' -> l = l' /\ w = w' /\ s = s' /\ k = k' /\ d = d'.
Proof.
  intros N N' E. unfold dir_of in E.
  assert (R : forall a b (x y z : string), (a ++ "/" ++ b ++ "/rngnum-" ++ x ++ "/" ++ y ++ "w_" ++ z ++ "s")%string = ((a ++ "/" ++ b ++ "/rngnum-" ++ x) ++ "/" ++ (y ++ "w_" ++ z ++ "s"))%string).
  { intros. now rewrite !app_assoc_s. }
  rewrite !R in E. clear R. apply last_slash in E as [E1 E2]; [|nofree..].
  assert (R : forall a b x : string, (a ++ "/" ++ b ++ "/rngnum-" ++ x)%string = ((a ++ "/" ++ b) ++ "/" ++ ("rngnum-" ++ x))%string).
  { intros. rewrite !app_assoc_s. reflexivity. }
  rewrite !R in E1. clear R. apply last_slash in E1 as [E1 E3]; [|nofree..]. apply last_slash in E1 as [-> ->]; [|assumption..].
  apply (f_equal L) in E3. rewrite !L_app in E3. apply app_inv_head in E3. apply L_inj, show_int_inj in E3.
  apply (f_equal L) in E2. rewrite !L_app in E2. cbn in E2. apply cut_first in E2 as [E2 E4]; [|apply (int_free "w"); [reflexivity|discriminate]..].
  apply L_inj, show_int_inj in E2. injection E4 as E4. apply app_inv_tail in E4. apply L_inj, show_int_inj in E4. auto.
Qed.
Lemma runs_apart sf ns ns' l w s k d l' w' s' k' d' ld ld' f f' : run_is ns l w s k d -> run_is ns' l' w' s' k' d' -> ~ occurs "/" l -> ~ occurs "/" l' ->
  setup_result_dir sf ns = Ok ld -> setup_result_dir sf ns' = Ok ld' -> ~ occurs "/" f -> ~ occurs "/" f' -> file_in (snd ld) f = file_in (snd ld') f' ->
  l = l' /\ w = w' /\ s = s' /\ k = k' /\ d = d' /\ f = f'.
Proof.
  intros R R' N N' E E' F F' X. rewrite (result_dir _ _ _ _ _ _ _ R) in E. rewrite (result_dir _ _ _ _ _ _ _ R') in E'. injection E as <-. injection E' as <-. cbn [snd] in X.
  unfold file_in in X. apply last_slash in X as [X ->]; [|assumption..]. apply dir_inj in X; [|assumption..]. intuition.
Qed.
Lemma written_files sf ns l w s k d ld : run_is ns l w s k d -> ~ occurs "/" l -> setup_result_dir sf ns = Ok ld -> ~ occurs "/" (fst ld) /\
  posterior_file ld = file_in (snd ld) (fst ld ++ "_posterior_samples.h5") /\ pdf_file ld = file_in (snd ld) (fst ld ++ "_pdfs.h5").
Proof.
  intros R N E. rewrite (result_dir _ _ _ _ _ _ _ R) in E. injection E as <-. cbn [fst snd]. split; [|split; reflexivity]. unfold label_of. rewrite !occurs_app. intros X.
  repeat (destruct X as [X|X]); try (eapply int_free; [| |exact X]; [reflexivity|discriminate]); try (cbn in X; intuition discriminate).
Qed.
(** the other settings do not show *)
Lemma dir_ignores sf ns key v : ~ In key ["run_label"; "warmup"; "samples"; "rngkey"; "result_dir"] -> setup_result_dir sf (dset key v ns) = setup_result_dir sf ns.
Proof.
  intros N. unfold setup_result_dir.
  assert (A : forall k, In k ["run_label"; "warmup"; "samples"; "rngkey"; "result_dir"] -> assoc k (dset key v ns) = assoc k ns) by (intros k I; apply assoc_dset_other; intros ->; contradiction).
  rewrite !A by (cbn; tauto). reflexivity.
Qed.
Lemma example_declared : declared example_options.
Proof. split; [apply nodup_strings; reflexivity|]. split; [apply nodup_strings; reflexivity|]. repeat constructor; try reflexivity; discriminate. Qed.
Lemma job_declared : declared job_options.
Proof. split; [apply nodup_strings; reflexivity|]. split; [apply nodup_strings; reflexivity|]. repeat constructor; try reflexivity; discriminate. Qed.

(** ** The batch script *)
Lemma split_word a b : ~ occurs " " a -> py_split " " (a ++ String " " b)%string = a :: py_split " " b.
Proof.
  induction a as [|c a IH]; intros N; cbn; [reflexivity|]. destruct (Ascii.eqb_spec c " ") as [->|NE]; [exfalso; apply N; now left|].
  rewrite IH; [reflexivity|]. intros I; apply N; now right.
Qed.
Lemma split_end a : ~ occurs " " a -> py_split " " a = a :: nil.
Proof.
  induction a as [|c a IH]; intros N; cbn; [reflexivity|]. destruct (Ascii.eqb_spec c " ") as [->|NE]; [exfalso; apply N; now left|].
  rewrite IH; [reflexivity|]. intros I; apply N; now right.
Qed.
Lemma plain_nonempty s : plain s -> negb (String.eqb s "") = true.
Proof. intros (N & _). destruct s; [congruence|reflexivity]. Qed.
Lemma plain_var s : plain s -> String.eqb s "$SLURM_ARRAY_TASK_ID" = false.
Proof. intros (_ & _ & N & _). destruct (String.eqb_spec s "$SLURM_ARRAY_TASK_ID") as [->|]; [exfalso; apply N; now left|reflexivity]. Qed.
Lemma plain_space s : plain s -> ~ occurs " " s.
Proof. now intros (_ & N & _). Qed.
Definition job_settings (sf : num -> string) (j : job) (task : string) : list setting :=
  [Apart "--samples" (show_int (j_samples j)); Apart "--warmup" (show_int (j_warmup j)); Apart "--rngkey" task; Apart "--run-label" (j_label j);
   Apart "--result-dir" (j_dir j); Apart "--mmin" (sf (Fin (j_mmin j))); Apart "--mmax" (sf (Fin (j_mmax j))); Apart "--pe-inj-file" (j_file j)].
Definition job_line (sf : num -> string) (j : job) : string :=
  (j_python j ++ " " ++ j_script j ++ " --samples " ++ show_int (j_samples j) ++ " --warmup " ++ show_int (j_warmup j) ++ " --rngkey $SLURM_ARRAY_TASK_ID --run-label " ++ j_label j ++ " --result-dir " ++ j_dir j ++ " --mmin " ++ sf (Fin (j_mmin j)) ++ " --mmax " ++ sf (Fin (j_mmax j)) ++ " --pe-inj-file " ++ j_file j)%string.
Lemma split_word' a b : ~ occurs " " a -> py_split " " (a ++ " " ++ b)%string = a :: py_split " " b.
Proof. apply split_word. Qed.
Definition words task (l : list string) := map (fun w => if String.eqb w "$SLURM_ARRAY_TASK_ID" then task else w) (filter (fun w => negb (String.eqb w "")) l).
Lemma words_plain task w l : plain w -> words task (w :: l) = w :: words task l.
Proof. intros P. unfold words. cbn [filter]. rewrite (plain_nonempty _ P). cbn [map]. now rewrite (plain_var _ P). Qed.
Lemma words_var task l : words task ("$SLURM_ARRAY_TASK_ID" :: l) = task :: words task l.
Proof. reflexivity. Qed.
Lemma words_lit task w l : negb (String.eqb w "") && negb (String.eqb w "$SLURM_ARRAY_TASK_ID") = true -> words task (w :: l) = w :: words task l.
Proof. intros P. apply andb_prop in P as [P Q]. unfold words. cbn [filter]. rewrite P. cbn [map]. apply negb_true_iff in Q. now rewrite Q. Qed.
Lemma job_words sf j task : plain_job sf j -> shell_words task (job_line sf j) = j_python j :: j_script j :: flat_map written (job_settings sf j task).
Proof.
  intros (P1 & P2 & P3 & P4 & P5 & P6 & P7 & P8 & P9). apply int_plain in P8. apply int_plain in P9. unfold shell_words. fold (words task (py_split " " (job_line sf j))). unfold job_line, job_settings.
  change " --samples " with (" " ++ "--samples" ++ " ")%string. change " --warmup " with (" " ++ "--warmup" ++ " ")%string.
  change " --rngkey $SLURM_ARRAY_TASK_ID --run-label " with (" " ++ "--rngkey" ++ " " ++ "$SLURM_ARRAY_TASK_ID" ++ " " ++ "--run-label" ++ " ")%string.
  change " --result-dir " with (" " ++ "--result-dir" ++ " ")%string. change " --mmin " with (" " ++ "--mmin" ++ " ")%string. change " --mmax " with (" " ++ "--mmax" ++ " ")%string.
  change " --pe-inj-file " with (" " ++ "--pe-inj-file" ++ " ")%string. rewrite !app_assoc_s.
  repeat (rewrite split_word' by (first [now apply plain_space|intros X; cbn in X; intuition discriminate])). rewrite split_end by now apply plain_space.
  repeat (first [rewrite words_plain by assumption|rewrite words_var|rewrite words_lit by reflexivity]). reflexivity.
Qed.
Lemma job_file sf ns j : job_is ns j -> exists name lines, job_script sf ns = Ok (name, lines) /\ nth 14 lines "" = job_line sf j /\
  nth 3 lines "" = ("#SBATCH --output=" ++ j_dir j ++ "/" ++ j_label j ++ "/rng_%a.out   ### file in which to store job stdout")%string /\
  nth 5 lines "" = ("#SBATCH --time=" ++ show_int (job_time (j_time j) (j_partition j)) ++ "          ### wall-clock time limit, in minutes")%string.
Proof.
  intros (A1 & A2 & A3 & A4 & A5 & A6 & A7 & A8 & A9 & A10 & A11 & H).
  destruct (H "job_name") as [b1 B1]; [cbn; tauto|]. destruct (H "mem") as [b2 B2]; [cbn; tauto|]. destruct (H "nodes") as [b3 B3]; [cbn; tauto|]. destruct (H "ntasks_per_node") as [b4 B4]; [cbn; tauto|].
  destruct (H "num_gpus") as [b5 B5]; [cbn; tauto|]. destruct (H "rng_keys") as [b6 B6]; [cbn; tauto|]. destruct (H "env") as [b7 B7]; [cbn; tauto|]. destruct (H "constraint") as [b8 B8]; [cbn; tauto|].
  unfold job_script. rewrite A1, A2, A3, A4, A5, A6, A7, A8, A9, A10, A11, B1, B2, B3, B4, B5, B6, B7, B8. cbn [rbind show].
  do 2 eexists. split; [reflexivity|]. cbn [nth]. split; [reflexivity|]. split; reflexivity.
Qed.
Lemma prefix_dash v : plain v -> forall n w, Apart "x" v = Apart n w -> String.prefix "-" w = false.
Proof. intros (_ & _ & _ & P) n w E. injection E as <- <-. exact P. Qed.
Lemma NoDup_map_inv' {A B} (f : A -> B) l x y : NoDup (map f l) -> In x l -> In y l -> f x = f y -> x = y.
Proof.
  induction l as [|a l IH]; intros ND I J E; [destruct I|]. cbn in ND. inversion ND as [|? ? N ND']; subst. destruct I as [->|I], J as [->|J]; auto.
  - exfalso. apply N. rewrite E. now apply in_map.
  - exfalso. apply N. rewrite <- E. now apply in_map.
Qed.
Lemma job_run pi pf sf ns j task k : reads_back pi pf sf j -> job_is ns j -> plain_job sf j -> plain task -> pi task = Some k ->
  exists name lines ns', job_script sf ns = Ok (name, lines) /\
    (let words := shell_words task (nth 14 lines "") in firstn 2 words = [j_python j; j_script j] /\ parse_args pi pf example_options (skipn 2 words) = Ok ns') /\
    run_is ns' (j_label j) (j_warmup j) (j_samples j) k (j_dir j) /\ assoc "mmin" ns' = Ok (AFloat (Fin (j_mmin j))) /\ assoc "mmax" ns' = Ok (AFloat (Fin (j_mmax j))) /\ assoc "pe_inj_file" ns' = Ok (AStr (j_file j)) /\
    (forall o, In o example_options -> o_type o <> THelp -> ~ In (o_flag o) ["--samples"; "--warmup"; "--rngkey"; "--run-label"; "--result-dir"; "--mmin"; "--mmax"; "--pe-inj-file"] -> assoc (o_dest o) ns' = Ok (o_default o)).
Proof.
  intros (RI & RF & RF') JI PJ PT KT. destruct (job_file sf ns j JI) as (name & lines & E & L14 & _). exists name, lines.
  pose proof PJ as (P1 & P2 & P3 & P4 & P5 & P6 & P7 & P8 & P9). apply int_plain in P8. apply int_plain in P9.
  assert (AL : Forall (allowed example_options) (job_settings sf j task)).
  { assert (O : forall f d t a v, In (Decl f d t a) example_options -> t <> THelp -> t <> TFlag -> plain v -> allowed example_options (Apart f v)).
    { intros f d t a v I1 I2 I3 I4. exists (Decl f d t a). split; [exact I1|]. split; [reflexivity|]. split; [exact I2|]. split; [split; [intros X; cbn in X; congruence|intros X; cbn in X; discriminate]|]. split; [intros w X; injection X as <-; left; apply I4|intros p X; discriminate X]. }
    unfold job_settings. repeat (constructor; [eapply O; [cbn; tauto|discriminate|discriminate|assumption]|]). constructor. }
  destruct (command_line pi pf example_options example_declared (job_settings sf j task) AL) as (G1 & G2 & _).
  destruct G2 as [ns' E'].
  { intros s o Is Io F. unfold job_settings in Is. cbn [In] in Is.
    unfold example_options, base_options in Io. cbn [In app] in Io.
    repeat (destruct Is as [<-|Is]); try contradiction; cbn [s_option s_text] in *;
      repeat (destruct Io as [<-|Io]; [cbn [o_flag] in F; try discriminate F|]); try contradiction; cbn [o_type]; eexists; econstructor; eauto. }
  exists ns'. rewrite L14. split; [exact E|]. rewrite (job_words sf j task PJ). cbn [firstn skipn]. split; [split; [reflexivity|exact E']|].
  assert (G : forall f d t a, In (Decl f d t a) example_options -> t <> THelp -> exists x, assoc d ns' = Ok x /\ attribute_is pi pf (job_settings sf j task) (Decl f d t a) x).
  { intros f d t a I1 I2. destruct (G1 ns' E' _ I1 I2) as (x & X1 & X2). exists x. auto. }
  assert (GS : forall f d a v, In (Decl f d TStr a) example_options -> last_for f (job_settings sf j task) = Some (Apart f v) -> assoc d ns' = Ok (AStr v)).
  { intros f d a v I1 LF. destruct (G f d TStr a I1) as (x & X1 & X2); [discriminate|]. unfold attribute_is in X2. cbn [o_flag o_type] in X2. rewrite LF in X2. cbn [s_text] in X2. inversion X2; subst. exact X1. }
  assert (GI : forall f d a v z, In (Decl f d TInt a) example_options -> last_for f (job_settings sf j task) = Some (Apart f v) -> pi v = Some z -> assoc d ns' = Ok (AInt z)).
  { intros f d a v z I1 LF PV. destruct (G f d TInt a I1) as (x & X1 & X2); [discriminate|]. unfold attribute_is in X2. cbn [o_flag o_type] in X2. rewrite LF in X2. cbn [s_text] in X2. inversion X2; subst. rewrite X1. congruence. }
  assert (GF : forall f d a v z, In (Decl f d TFloat a) example_options -> last_for f (job_settings sf j task) = Some (Apart f v) -> pf v = Some z -> assoc d ns' = Ok (AFloat z)).
  { intros f d a v z I1 LF PV. destruct (G f d TFloat a I1) as (x & X1 & X2); [discriminate|]. unfold attribute_is in X2. cbn [o_flag o_type] in X2. rewrite LF in X2. cbn [s_text] in X2. inversion X2; subst. rewrite X1. congruence. }
  split; [split; [|split; [|split; [|split]]]|split; [|split; [|split]]].
  - eapply (GS "--run-label"); [cbn; tauto|reflexivity].
  - eapply (GI "--warmup"); [cbn; tauto|reflexivity|apply RI].
  - eapply (GI "--samples"); [cbn; tauto|reflexivity|apply RI].
  - eapply (GI "--rngkey"); [cbn; tauto|reflexivity|assumption].
  - eapply (GS "--result-dir"); [cbn; tauto|reflexivity].
  - eapply (GF "--mmin"); [cbn; tauto|reflexivity|assumption].
  - eapply (GF "--mmax"); [cbn; tauto|reflexivity|assumption].
  - eapply (GS "--pe-inj-file"); [cbn; tauto|reflexivity].
  - intros o Io T N. destruct (G1 ns' E' o Io T) as (x & X1 & X2). unfold attribute_is in X2. assert (LN : last_for (o_flag o) (job_settings sf j task) = None).
    { change (~ In (o_flag o) (map s_option (job_settings sf j task))) in N. clear -N. induction (job_settings sf j task) as [|s l IH]; [reflexivity|]. cbn [last_for map] in *. rewrite IH by (intros I; apply N; now right).
      destruct (String.eqb_spec (s_option s) (o_flag o)) as [X|]; [exfalso; apply N; now left|reflexivity]. }
    rewrite LN in X2. now subst x.
Qed.
Lemma time_limit t p : (job_time t p <= t)%Z /\ ((job_time t p <= 1440)%Z \/ contains "long" p = true) /\ ((t <= 1440)%Z \/ contains "long" p = true -> job_time t p = t).
Proof. unfold job_time. destruct (Z.ltb_spec 1440 t); destruct (contains "long" p); repeat split; try lia; intros; intuition (discriminate || lia). Qed.
Lemma tasks_apart pi pf sf ns j task task' k k' : reads_back pi pf sf j -> job_is ns j -> plain_job sf j -> ~ occurs "/" (j_label j) -> plain task -> plain task' -> pi task = Some k -> pi task' = Some k' -> k <> k' ->
  exists name lines ns1 ns2 ld1 ld2, job_script sf ns = Ok (name, lines) /\ parse_args pi pf example_options (skipn 2 (shell_words task (nth 14 lines ""))) = Ok ns1 /\
    parse_args pi pf example_options (skipn 2 (shell_words task' (nth 14 lines ""))) = Ok ns2 /\ setup_result_dir sf ns1 = Ok ld1 /\ setup_result_dir sf ns2 = Ok ld2 /\
    forall f f', ~ occurs "/" f -> ~ occurs "/" f' -> file_in (snd ld1) f <> file_in (snd ld2) f'.
Proof.
  intros RB JI PJ NS PT PT' KT KT' NE. destruct (job_run _ _ _ _ _ _ _ RB JI PJ PT KT) as (name & lines & ns1 & E & (_ & P1) & R1 & _). destruct (job_run _ _ _ _ _ _ _ RB JI PJ PT' KT') as (name' & lines' & ns2 & E' & (_ & P2) & R2 & _).
  rewrite E in E'. injection E' as <- <-. exists name, lines, ns1, ns2. do 2 eexists. split; [exact E|]. split; [exact P1|]. split; [exact P2|]. split; [apply (result_dir _ _ _ _ _ _ _ R1)|]. split; [apply (result_dir _ _ _ _ _ _ _ R2)|].
  intros f f' F F' X. destruct (runs_apart sf _ _ _ _ _ _ _ _ _ _ _ _ _ _ f f' R1 R2 NS NS (result_dir _ _ _ _ _ _ _ R1) (result_dir _ _ _ _ _ _ _ R2) F F' X) as (_ & _ & _ & K & _). contradiction.
Qed.
Lemma job_logs pi pf sf ns j task k : reads_back pi pf sf j -> job_is ns j -> plain_job sf j -> plain task -> pi task = Some k ->
  exists name lines ns' ld rest, job_script sf ns = Ok (name, lines) /\ parse_args pi pf example_options (skipn 2 (shell_words task (nth 14 lines ""))) = Ok ns' /\ setup_result_dir sf ns' = Ok ld /\
    String.prefix ("#SBATCH --output=" ++ j_dir j ++ "/" ++ j_label j ++ "/rng_%a.out") (nth 3 lines "") = true /\ snd ld = (j_dir j ++ "/" ++ j_label j ++ "/" ++ rest)%string /\
    String.prefix ("#SBATCH --time=" ++ show_int (job_time (j_time j) (j_partition j)) ++ " ") (nth 5 lines "") = true.
Proof.
  intros RB JI PJ PT KT. destruct (job_run _ _ _ _ _ _ _ RB JI PJ PT KT) as (name & lines & ns1 & E & (_ & P1) & R1 & _). destruct (job_file sf ns j JI) as (name' & lines' & E' & _ & L3 & L5).
  rewrite E in E'. injection E' as <- <-. exists name, lines, ns1. do 2 eexists. split; [exact E|]. split; [exact P1|]. split; [apply (result_dir _ _ _ _ _ _ _ R1)|].
  assert (PA : forall a b, String.prefix a (a ++ b)%string = true). { induction a as [|c a IH]; intros b; [destruct b; reflexivity|]. cbn. destruct (ascii_dec c c); [apply IH|congruence]. }
  split; [|split].
  - rewrite L3. change "/rng_%a.out   ### file in which to store job stdout" with ("/rng_%a.out" ++ "   ### file in which to store job stdout")%string. rewrite <- !app_assoc_s. rewrite PA. reflexivity.
  - cbn [snd]. unfold dir_of. reflexivity.
  - rewrite L5. change "          ### wall-clock time limit, in minutes" with (" " ++ "         ### wall-clock time limit, in minutes")%string. rewrite <- !app_assoc_s. apply PA.
Qed.
Lemma none_text sf ns key : key <> "time" -> job_script sf (dset key ANone ns) = job_script sf (dset key (AStr "None") ns).
Proof.
  intros NT. unfold job_script.
  assert (A : forall k, (do a <- assoc k (dset key ANone ns); Ok (show sf a)) = (do a <- assoc k (dset key (AStr "None") ns); Ok (show sf a))).
  { intros k. destruct (String.eqb_spec k key) as [->|NE]; [now rewrite !assoc_dset_same|now rewrite !assoc_dset_other by auto]. }
  rewrite !A. rewrite !(assoc_dset_other "time") by auto. reflexivity.
Qed.
Lemma dir_missing sf ns : (assoc "run_label" ns = Ok ANone \/ assoc "result_dir" ns = Ok ANone) -> (forall k, In k ["run_label"; "warmup"; "samples"; "rngkey"; "result_dir"] -> exists a, assoc k ns = Ok a) -> setup_result_dir sf ns = Err TypeError.
Proof.
  intros M H. destruct (H "run_label") as [a A]; [cbn; tauto|]. destruct (H "warmup") as [b B]; [cbn; tauto|]. destruct (H "samples") as [c C]; [cbn; tauto|]. destruct (H "rngkey") as [d D]; [cbn; tauto|]. destruct (H "result_dir") as [e E]; [cbn; tauto|].
  unfold setup_result_dir. rewrite A. cbn [rbind]. destruct a; cbn [need_str rbind]; try reflexivity. rewrite B, C, D, E. cbn [rbind]. destruct M as [M|M]; [congruence|]. rewrite M in E. injection E as <-. reflexivity.
Qed.
