(** Proofs about the command line (C105). *)
From Verif Require Import PSetup PConstruct.
From Verif Require Import SpecCommand.
Open Scope R_scope.
Open Scope string_scope.
Open Scope list_scope.

Lemma contains_cons c r : contains "=" (String c r) = (Ascii.eqb "=" c || contains "=" r)%bool.
Proof.
  unfold contains. cbn [String.index]. change (String.prefix "=" (String c r)) with (if ascii_dec "=" c then String.prefix "" r else false).
  destruct (ascii_dec "=" c) as [E|E]; destruct (Ascii.eqb_spec "=" c) as [E'|E']; try congruence; cbn [orb].
  - destruct r; reflexivity.
  - destruct (String.index 0 "=" r); reflexivity.
Qed.
Lemma split_joined n v : contains "=" n = false -> split_eq (n ++ "=" ++ v) = (n, Some v).
Proof.
  induction n as [|c n IH]; [reflexivity|]. rewrite contains_cons. intros H. apply orb_false_elim in H. destruct H as [H1 H2].
  change ((String c n ++ "=" ++ v)%string) with (String c (n ++ "=" ++ v)%string). cbn [split_eq]. rewrite Ascii.eqb_sym, H1, IH by auto. reflexivity.
Qed.
Lemma contains_joined n v : contains "=" (n ++ "=" ++ v) = true.
Proof.
  induction n as [|c n IH].
  - change ("" ++ "=" ++ v)%string with (String "=" v). rewrite contains_cons. reflexivity.
  - change ((String c n ++ "=" ++ v)%string) with (String c (n ++ "=" ++ v)%string). rewrite contains_cons, IH. apply orb_true_r.
Qed.
Lemma prefix_long n : long_name n -> exists c r, n = String "-" (String "-" (String c r)).
Proof.
  intros (H & _ & D). destruct n as [|a n]; [discriminate H|]. cbn [String.prefix] in H. destruct (ascii_dec "-" a) as [E|NE]; [subst a|discriminate H].
  destruct n as [|b n]; [discriminate H|]. cbn [String.prefix] in H. destruct (ascii_dec "-" b) as [E|NE]; [subst b|discriminate H].
  destruct n as [|c r]; [contradiction D; reflexivity|eauto].
Qed.
Lemma lookup_in opts o : NoDup (map o_flag opts) -> In o opts -> lookup opts (o_flag o) = Some o.
Proof.
  unfold lookup. induction opts as [|o' opts IH]; [intros _ []|]. cbn [map find]. intros ND. inversion ND as [|x l NI ND' EX]; subst. intros [<-|HI].
  - rewrite String.eqb_refl. reflexivity.
  - destruct (String.eqb_spec (o_flag o') (o_flag o)) as [E|]; auto. exfalso. apply NI. rewrite E. apply in_map. auto.
Qed.
Lemma lookup_none opts t : (forall o, In o opts -> o_flag o <> t) -> lookup opts t = None.
Proof. intros H. unfold lookup. induction opts as [|o opts IH]; auto. cbn [find]. destruct (String.eqb_spec (o_flag o) t); [exfalso; apply (H o); cbn; auto|]. apply IH. intros o' HI. apply H. right. auto. Qed.

Section Line.
Variables (py_int : string -> option Z) (py_float : string -> option num) (opts : list option_decl).
Hypothesis HD : declared opts.

Lemma class_name o : In o opts -> classify opts (o_flag o) = Opt o None.
Proof.
  destruct HD as (ND & _ & HL). intros HI. rewrite Forall_forall in HL. specialize (HL _ HI). cbn in HL. destruct (prefix_long _ HL) as (c & r & E).
  unfold classify. rewrite (lookup_in opts o ND HI). rewrite E. reflexivity.
Qed.
Lemma class_joined o v : In o opts -> classify opts (o_flag o ++ "=" ++ v) = Opt o (Some v).
Proof.
  destruct HD as (ND & _ & HL). intros HI. rewrite Forall_forall in HL. pose proof (HL _ HI) as HO. destruct (prefix_long _ HO) as (c & r & E).
  unfold classify. rewrite lookup_none.
  2:{ intros o' HI' EQ. pose proof (HL _ HI') as (_ & NC & _). rewrite EQ, contains_joined in NC. discriminate. }
  rewrite split_joined by apply HO. rewrite (lookup_in opts o ND HI). rewrite E. reflexivity.
Qed.
Lemma class_plain v : String.prefix "-" v = false -> classify opts v = Value.
Proof. intros H. unfold classify. rewrite H. reflexivity. Qed.

Lemma append_nil_r s : (s ++ "")%string = s.
Proof. induction s as [|c s IH]; auto. cbn. now rewrite IH. Qed.
Lemma digit_in c : In c (list_ascii_of_string "0123456789") <-> is_digit c = true.
Proof.
  destruct c as [[] [] [] [] [] [] [] []]; cbv; split; intros H; try reflexivity; try discriminate; try tauto; repeat (destruct H as [H|H]; [discriminate H|]); destruct H.
Qed.
Lemma tail_digits d : forall seen dot rest, digits d -> neg_tail (d ++ rest) seen dot = neg_tail rest (seen || negb (String.eqb d ""))%bool dot.
Proof.
  induction d as [|c d IH]; intros seen dot rest H; [cbn; now rewrite orb_false_r|]. inversion H as [|x l H1 H2]; subst. apply digit_in in H1.
  change ((String c d ++ rest)%string) with (String c (d ++ rest)%string). cbn [neg_tail]. rewrite H1, IH by exact H2. cbn [String.eqb negb]. rewrite orb_true_r. reflexivity.
Qed.
Lemma tail_shape : forall s seen dot, neg_tail s seen dot = true -> exists d1 d2, digits d1 /\ digits d2 /\
  ((s = d1 /\ (seen = true \/ d1 <> ""))%string \/ (dot = false /\ s = d1 ++ "." ++ d2 /\ d2 <> ""))%string.
Proof.
  induction s as [|c s IH]; intros seen dot H.
  - cbn in H. exists ""%string, ""%string. split; [constructor|]. split; [constructor|]. left. auto.
  - cbn [neg_tail] in H. destruct (is_digit c) eqn:D.
    + destruct (IH _ _ H) as (d1 & d2 & D1 & D2 & C). exists (String c d1), d2. split; [constructor; [apply digit_in; auto|auto]|]. split; auto.
      destruct C as [[-> C]|(C1 & -> & C2)]; [left; split; auto; right; discriminate|right; auto].
    + destruct (Ascii.eqb_spec c "."); cbn [andb] in H; [|discriminate]. subst c. destruct dot; cbn [negb] in H; [discriminate|]. destruct (IH _ _ H) as (d1 & d2 & D1 & D2 & C).
      destruct C as [[-> [C|C]]|(C1 & _)]; try discriminate. exists ""%string, d1. split; [constructor|]. split; auto.
Qed.
Lemma negative_iff v : looks_negative v = true <-> negative_number v.
Proof.
  split.
  - unfold looks_negative. destruct v as [|c v]; [discriminate|]. intros H.
    assert (E : c = "-"%char) by (destruct c as [[] [] [] [] [] [] [] []]; first [discriminate H|reflexivity]). subst c.
    destruct (tail_shape v false false H) as (d1 & d2 & D1 & D2 & C). exists d1, d2. split; auto. split; auto. destruct C as [[-> [C|C]]|(_ & -> & C)]; [discriminate|left; auto|right; auto].
  - intros (d1 & d2 & D1 & D2 & [[-> N]|[-> N]]); cbn [String.append looks_negative].
    + rewrite <- (append_nil_r d1), tail_digits by auto. cbn [neg_tail]. destruct d1; [congruence|reflexivity].
    + rewrite tail_digits by auto. cbn [String.append neg_tail is_digit]. change (is_digit ".") with false. cbn [Ascii.eqb Bool.eqb andb negb]. rewrite <- (append_nil_r d2), tail_digits by auto. cbn [neg_tail]. destruct d2; [congruence|reflexivity].
Qed.
Lemma negative_second v : negative_number v -> exists c r, v = String "-" (String c r) /\ (is_digit c = true \/ c = "."%char).
Proof.
  intros (d1 & d2 & D1 & D2 & H). destruct d1 as [|c d1].
  - destruct H as [[-> N]|[-> N]]; [congruence|]. cbn. eauto.
  - inversion D1 as [|x l H1 H2]; subst. apply digit_in in H1. destruct H as [[-> N]|[-> N]]; cbn; eauto.
Qed.
Lemma class_negative v : negative_number v -> classify opts v = Value.
Proof.
  intros H. pose proof (proj2 (negative_iff v) H) as HL. destruct (negative_second v H) as (c & r & -> & HC).
  assert (N1 : c <> "-"%char) by (intros ->; destruct HC as [HC|HC]; [cbv in HC; discriminate|discriminate HC]).
  assert (N2 : c <> "h"%char) by (intros ->; destruct HC as [HC|HC]; [cbv in HC; discriminate|discriminate HC]).
  destruct HD as (ND & _ & HF). rewrite Forall_forall in HF.
  assert (NL : forall n, (exists o, In o opts /\ o_flag o = n) -> forall x, n <> String "-" (String c x)).
  { intros n (o & HI & <-) x E. destruct (prefix_long _ (HF o HI)) as (c' & r' & E'). rewrite E in E'. injection E' as E1 E2. congruence. }
  unfold classify. change (String.prefix "-" (String "-" (String c r))) with true. cbn [negb]. rewrite lookup_none by (intros o HI E; exact (NL _ (ex_intro _ o (conj HI eq_refl)) r E)).
  change (String.eqb (String "-" (String c r)) "-") with false.
  assert (E2 : String.eqb (String "-" (String c r)) "--" = false) by (apply String.eqb_neq; intros E; injection E as E _; congruence). rewrite E2.
  assert (SP : forall d rest, neg_tail d rest false = true \/ neg_tail d rest true = true -> split_eq d = (d, None)).
  { clear. induction d as [|x d IH]; intros seen H; [reflexivity|]. cbn [neg_tail] in H. cbn [split_eq].
    destruct (Ascii.eqb_spec x "="); [subst x; change (is_digit "=") with false in H; cbn in H; destruct H; discriminate|].
    destruct (is_digit x); [destruct H as [H|H]; rewrite (IH _ ltac:(eauto)); reflexivity|]. destruct (Ascii.eqb x "."); cbn [andb negb] in H; [|destruct H; discriminate]. destruct H as [H|H]; [|discriminate]. rewrite (IH false) by auto. reflexivity. }
  change (looks_negative (String "-" (String c r))) with (neg_tail (String c r) false false) in HL.
  change (split_eq (String "-" (String c r))) with (let '(a, b) := split_eq (String c r) in (String "-" a, b)). rewrite (SP _ false (or_introl HL)).
  assert (P2 : String.prefix "--" (String "-" (String c r)) = false) by (cbn [String.prefix]; destruct (ascii_dec "-" "-"); auto; destruct (ascii_dec "-" c); auto; congruence). rewrite P2.
  assert (PH : String.prefix "-h" (String "-" (String c r)) = false) by (cbn [String.prefix]; destruct (ascii_dec "-" "-"); auto; destruct (ascii_dec "h" c); auto; congruence). rewrite PH.
  change (looks_negative (String "-" (String c r))) with (neg_tail (String c r) false false). rewrite HL. reflexivity.
Qed.
Lemma class_value v : String.prefix "-" v = false \/ negative_number v -> classify opts v = Value.
Proof. intros [H|H]; [apply class_plain; auto|apply class_negative; auto]. Qed.
(** a dash, and not a number *)
Lemma class_dash v : String.prefix "-" v = true -> v <> "-" -> contains " " v = false -> ~ negative_number v -> classify opts v <> Value.
Proof.
  intros H1 H2 H3 H4. unfold classify. rewrite H1. cbn [negb]. destruct (lookup opts v); [discriminate|]. apply String.eqb_neq in H2. rewrite H2. destruct (String.eqb v "--"); [discriminate|].
  destruct (split_eq v) as [name explicit]. destruct (match explicit with Some _ => lookup opts name | None => None end); [discriminate|].
  destruct (if String.prefix "--" v then filter (fun o => String.prefix name (o_flag o)) opts else []) as [|o [|o' l]]; try discriminate.
  destruct (String.prefix "-h" v); [discriminate|]. rewrite H3. assert (E : looks_negative v = false) by (apply not_true_is_false; intros E; apply H4, negative_iff; auto). rewrite E. discriminate.
Qed.
Lemma filter_one p n o : In o opts -> o_flag o = n -> (forall o, In o opts -> (String.prefix p (o_flag o) = true <-> o_flag o = n)) -> filter (fun o => String.prefix p (o_flag o)) opts = o :: nil.
Proof.
  destruct HD as (ND & _ & _). revert ND. clear. induction opts as [|x l IH]; [intros _ []|]. cbn [map]. intros ND. inversion ND as [|y l' NI ND' EX]; subst. intros HI E H. cbn [filter].
  destruct HI as [<-|HI].
  - rewrite (proj2 (H x (or_introl eq_refl))) by auto. f_equal. clear - NI H E. induction l as [|z l IH]; auto. cbn [filter].
    assert (F : String.prefix p (o_flag z) = false) by (apply not_true_is_false; intros F; apply H in F; [|right; left; auto]; apply NI; left; congruence). rewrite F. apply IH; [intros X; apply NI; right; auto|]. intros o [<-|HI]; apply H; [left; auto|right; right; auto].
  - assert (F : String.prefix p (o_flag x) = false) by (apply not_true_is_false; intros F; apply H in F; [|left; auto]; apply NI; rewrite F, <- E; apply in_map; auto). rewrite F. apply IH; auto. intros o' HI'. apply H. right. auto.
Qed.
Lemma prefix_self s : String.prefix s s = true.
Proof. induction s as [|c s IH]; auto. cbn [String.prefix]. destruct (ascii_dec c c); [exact IH|congruence]. Qed.
Lemma split_plain n : contains "=" n = false -> split_eq n = (n, None).
Proof.
  induction n as [|c n IH]; [reflexivity|]. rewrite contains_cons. intros H. apply orb_false_elim in H. destruct H as [H1 H2]. cbn [split_eq]. rewrite Ascii.eqb_sym, H1, IH by auto. reflexivity.
Qed.
Lemma class_short p o : In o opts -> abbreviates opts p (o_flag o) -> classify opts p = Opt o None.
Proof.
  intros HI ((r & -> & HR) & HC & HU). unfold classify. change (String.prefix "-" ("--" ++ r)%string) with true. cbn [negb]. destruct (lookup opts ("--" ++ r)%string) as [o'|] eqn:EL.
  - assert (HI' : In o' opts /\ o_flag o' = ("--" ++ r)%string) by (unfold lookup in EL; apply find_some in EL as [X Y]; apply String.eqb_eq in Y; auto). destruct HI' as [HI' EF].
    assert (E : o_flag o' = o_flag o) by (apply HU; auto; rewrite EF; apply prefix_self). destruct HD as (ND & _ & _). pose proof (lookup_in opts o' ND HI') as L1. pose proof (lookup_in opts o ND HI) as L2. rewrite E in L1. congruence.
  - change (String.eqb ("--" ++ r)%string "-") with false. assert (E2 : String.eqb ("--" ++ r)%string "--" = false) by (apply String.eqb_neq; intros E; injection E as E; auto). rewrite E2.
    rewrite split_plain by auto. assert (P2 : String.prefix "--" ("--" ++ r)%string = true) by (destruct r; reflexivity). rewrite P2, (filter_one _ (o_flag o) o) by auto. reflexivity.
Qed.
Lemma class_short_joined p o v : In o opts -> abbreviates opts p (o_flag o) -> classify opts (p ++ "=" ++ v) = Opt o (Some v).
Proof.
  intros HI ((r & -> & HR) & HC & HU). unfold classify. change (String.prefix "-" (("--" ++ r) ++ "=" ++ v)%string) with true. cbn [negb].
  destruct HD as (ND & _ & HL). rewrite Forall_forall in HL. rewrite lookup_none.
  2:{ intros o' HI' EQ. pose proof (HL _ HI') as (_ & NC & _). rewrite EQ, contains_joined in NC. discriminate. }
  change (String.eqb (("--" ++ r) ++ "=" ++ v)%string "-") with false. assert (E2 : String.eqb (("--" ++ r) ++ "=" ++ v)%string "--" = false) by (apply String.eqb_neq; intros E; injection E as E; destruct r; discriminate E). rewrite E2.
  rewrite split_joined by auto. destruct (lookup opts ("--" ++ r)%string) as [o'|] eqn:EL.
  - assert (HI' : In o' opts /\ o_flag o' = ("--" ++ r)%string) by (unfold lookup in EL; apply find_some in EL as [X Y]; apply String.eqb_eq in Y; auto). destruct HI' as [HI' EF].
    assert (E : o_flag o' = o_flag o) by (apply HU; auto; rewrite EF; apply prefix_self). pose proof (lookup_in opts o' ND HI') as L1. pose proof (lookup_in opts o ND HI) as L2. rewrite E in L1. congruence.
  - assert (P2 : String.prefix "--" (("--" ++ r) ++ "=" ++ v)%string = true) by (destruct r; reflexivity). rewrite P2, (filter_one _ (o_flag o) o) by auto. reflexivity.
Qed.

(** one setting consumed *)
Lemma parse_setting s o rest ns : allowed opts s -> In o opts -> o_flag o = s_option s ->
  parse_from py_int py_float opts (written s ++ rest) ns =
  match s_text s with
  | None => parse_from py_int py_float opts rest (dset (o_dest o) (ABool true) ns)
  | Some v => do a <- convert py_int py_float (o_type o) v; parse_from py_int py_float opts rest (dset (o_dest o) a ns)
  end.
Proof.
  intros (o' & HI' & E' & NH & TF & PL & SH) HI E. assert (EO : o' = o).
  { destruct HD as (ND & _ & _). pose proof (lookup_in opts o ND HI) as L1. pose proof (lookup_in opts o' ND HI') as L2. rewrite E', <- E in L2. congruence. }
  subst o'. destruct s as [n|n v|n v|p n|p n v|p n v]; cbn [written s_option s_text s_apart s_short app] in *; subst n.
  - cbn [parse_from]. rewrite (class_name o HI). destruct (o_type o) eqn:ET; try reflexivity; exfalso; destruct TF as [_ TF]; discriminate (TF eq_refl) || congruence.
  - cbn [parse_from]. rewrite (class_name o HI), (class_value v (PL _ eq_refl)).
    destruct (o_type o) eqn:ET; try reflexivity; exfalso; destruct TF as [TF _]; (discriminate (TF eq_refl) || congruence).
  - cbn [parse_from]. rewrite (class_joined o v HI). destruct (o_type o) eqn:ET; try reflexivity; congruence.
  - cbn [parse_from]. rewrite (class_short p o HI (SH _ eq_refl)). destruct (o_type o) eqn:ET; try reflexivity; exfalso; destruct TF as [_ TF]; discriminate (TF eq_refl) || congruence.
  - cbn [parse_from]. rewrite (class_short p o HI (SH _ eq_refl)), (class_value v (PL _ eq_refl)).
    destruct (o_type o) eqn:ET; try reflexivity; exfalso; destruct TF as [TF _]; (discriminate (TF eq_refl) || congruence).
  - cbn [parse_from]. rewrite (class_short_joined p o v HI (SH _ eq_refl)). destruct (o_type o) eqn:ET; try reflexivity; congruence.
Qed.

Lemma convert_reads t v a : t <> TFlag -> t <> THelp -> convert py_int py_float t v = Ok a -> reads py_int py_float t (Some v) a.
Proof.
  intros H1 H2. destruct t; cbn; try congruence.
  - intros E. injection E as <-. constructor.
  - destruct (py_int v) eqn:EI; [|discriminate]. intros E. injection E as <-. constructor. auto.
  - destruct (py_float v) eqn:EI; [|discriminate]. intros E. injection E as <-. constructor. auto.
  - intros E. injection E as <-. replace (negb (String.eqb v "")) with (if String.eqb v "" then false else true); [constructor|]. destruct (String.eqb v ""); reflexivity.
Qed.
Lemma reads_convert t v a : reads py_int py_float t (Some v) a -> convert py_int py_float t v = Ok a.
Proof.
  intros H. inversion H as [v' E1 E2|v' z E0 E1 E2|v' x E0 E1 E2|v' E1 E2|]; subst; cbn; try rewrite E0; auto; destruct (String.eqb v ""); reflexivity.
Qed.

Lemma flag_none s o : allowed opts s -> In o opts -> o_flag o = s_option s -> o_type o <> THelp /\ (o_type o = TFlag <-> s_text s = None).
Proof.
  intros (o' & HI' & E' & NH & TF & _) HI E. destruct HD as (ND & _ & _). pose proof (lookup_in opts o ND HI) as L1. pose proof (lookup_in opts o' ND HI') as L2. rewrite E', <- E in L2.
  assert (o' = o) by congruence. subst. auto.
Qed.
Lemma same_dest o o' : In o opts -> In o' opts -> o_dest o = o_dest o' -> o = o'.
Proof.
  destruct HD as (_ & ND & _). revert ND. clear. induction opts as [|x l IH]; [intros _ []|]. cbn [map]. intros ND. inversion ND as [|y l' NI ND' EX]; subst. intros [<-|H1] [<-|H2] E; auto.
  - exfalso. apply NI. rewrite E. apply in_map. auto.
  - exfalso. apply NI. rewrite <- E. apply in_map. auto.
Qed.

Lemma parse_sound ss : Forall (allowed opts) ss -> forall ns0 ns, parse_from py_int py_float opts (flat_map written ss) ns0 = Ok ns ->
  forall o, In o opts -> match last_for (o_flag o) ss with
    | Some s => exists a, reads py_int py_float (o_type o) (s_text s) a /\ assoc (o_dest o) ns = Ok a
    | None => assoc (o_dest o) ns = assoc (o_dest o) ns0 end.
Proof.
  induction 1 as [|s ss HA HF IH]; intros ns0 ns HP o HI; cbn [flat_map last_for] in *.
  - cbn in HP. injection HP as <-. reflexivity.
  - destruct HA as (os & HIs & Es & HR). assert (HA : allowed opts s) by (exists os; auto). destruct (flag_none s os HA HIs Es) as (NH & TF).
    rewrite (parse_setting s os _ ns0 HA HIs Es) in HP.
    assert (ST : exists a, reads py_int py_float (o_type os) (s_text s) a /\ parse_from py_int py_float opts (flat_map written ss) (dset (o_dest os) a ns0) = Ok ns).
    { destruct (s_text s) as [v|] eqn:EV.
      - destruct (convert py_int py_float (o_type os) v) as [a|] eqn:EC; [|discriminate]. exists a. split; auto. apply convert_reads; auto. intros E. apply TF in E. discriminate.
      - exists (ABool true). split; auto. rewrite (proj2 TF eq_refl). constructor. }
    destruct ST as (a & RA & HP'). specialize (IH _ _ HP' o HI). destruct (last_for (o_flag o) ss) as [s'|] eqn:EL; auto.
    destruct (String.eqb_spec (s_option s) (o_flag o)) as [EQ|NE].
    + exists a. assert (o = os). { destruct HD as (ND & _ & _). pose proof (lookup_in opts o ND HI) as L1. pose proof (lookup_in opts os ND HIs) as L2. rewrite Es, EQ in L2. congruence. }
      subst os. split; auto. rewrite IH. apply assoc_dset_same.
    + rewrite IH. apply assoc_dset_other. intros E. apply NE. rewrite <- Es. f_equal. symmetry. apply same_dest; auto.
Qed.
Lemma parse_complete ss : Forall (allowed opts) ss -> (forall s o, In s ss -> In o opts -> o_flag o = s_option s -> exists a, reads py_int py_float (o_type o) (s_text s) a) ->
  forall ns0, exists ns, parse_from py_int py_float opts (flat_map written ss) ns0 = Ok ns.
Proof.
  induction 1 as [|s ss HA HF IH]; intros HR ns0; cbn [flat_map].
  - cbn. eauto.
  - pose proof HA as (os & HIs & Es & _). rewrite (parse_setting s os _ ns0 HA HIs Es). destruct (HR s os (or_introl eq_refl) HIs Es) as (a & RA).
    assert (HR' : forall s0 o, In s0 ss -> In o opts -> o_flag o = s_option s0 -> exists a0, reads py_int py_float (o_type o) (s_text s0) a0) by (intros; eapply HR; eauto; right; auto).
    destruct (s_text s) as [v|] eqn:EV; [|apply IH; auto]. rewrite (reads_convert _ _ _ RA). cbn [rbind]. apply IH; auto.
Qed.
Lemma parse_exits ss : Forall (allowed opts) ss -> (exists s o, In s ss /\ In o opts /\ o_flag o = s_option s /\ forall a, ~ reads py_int py_float (o_type o) (s_text s) a) ->
  forall ns0, parse_from py_int py_float opts (flat_map written ss) ns0 = Err OtherError.
Proof.
  induction 1 as [|s ss HA HF IH]; intros (s0 & o & HI & HO & EO & HN) ns0; [destruct HI|]. cbn [flat_map].
  pose proof HA as (os & HIs & Es & _). rewrite (parse_setting s os _ ns0 HA HIs Es). destruct (flag_none s os HA HIs Es) as (NH & TF).
  assert (SUB : In s0 ss -> exists s1 o1, In s1 ss /\ In o1 opts /\ o_flag o1 = s_option s1 /\ (forall a, ~ reads py_int py_float (o_type o1) (s_text s1) a)) by (intros; exists s0, o; auto).
  destruct HI as [<-|HI].
  - assert (o = os). { destruct HD as (ND & _ & _). pose proof (lookup_in opts o ND HO) as L1. pose proof (lookup_in opts os ND HIs) as L2. rewrite Es, <- EO in L2. congruence. }
    subst o. destruct (s_text s) as [v|] eqn:EV.
    + destruct (convert py_int py_float (o_type os) v) as [a|e] eqn:EC.
      * exfalso. apply (HN a). apply convert_reads; auto. intros E. apply TF in E. discriminate.
      * cbn [rbind]. destruct (o_type os); cbn in EC; try discriminate; try (injection EC as <-; reflexivity); [destruct (py_int v)|destruct (py_float v)]; congruence.
    + exfalso. apply (HN (ABool true)). rewrite (proj2 TF eq_refl). constructor.
  - specialize (IH (SUB HI)). destruct (s_text s) as [v|] eqn:EV; [|apply IH].
    destruct (convert py_int py_float (o_type os) v) as [a|e] eqn:EC; cbn [rbind]; [apply IH|]. destruct (o_type os); cbn in EC; try discriminate; try (injection EC as <-; reflexivity); [destruct (py_int v)|destruct (py_float v)]; congruence.
Qed.

Lemma parse_dash ss o n v rest : Forall (allowed opts) ss -> In o opts -> o_flag o = n -> o_type o <> TFlag ->
  String.prefix "-" v = true -> v <> "-" -> contains " " v = false -> ~ negative_number v ->
  forall ns0, exists e, parse_from py_int py_float opts (flat_map written ss ++ n :: v :: rest) ns0 = Err e.
Proof.
  intros HA HI <- HT H1 H2 H3 H4. induction HA as [|s ss HS HF IH]; intros ns0; cbn [flat_map app].
  - cbn [parse_from]. rewrite (class_name o HI). destruct (classify opts v) eqn:EC; [exfalso; exact (class_dash v H1 H2 H3 H4 EC)| |]; destruct (o_type o); eauto; congruence.
  - pose proof HS as (os & HIs & Es & _). rewrite <- app_assoc. rewrite (parse_setting s os _ ns0 HS HIs Es). destruct (s_text s) as [w|]; [|apply IH]. destruct (convert py_int py_float (o_type os) w) as [a|e]; cbn [rbind]; [apply IH|eauto].
Qed.
Lemma default_of o : In o opts -> o_type o <> THelp -> assoc (o_dest o) (defaults opts) = Ok (o_default o).
Proof.
  destruct HD as (_ & ND & _). revert ND. unfold defaults. clear. induction opts as [|x l IH]; [intros _ []|]. cbn [map filter]. intros ND. inversion ND as [|y l' NI ND' EX]; subst. intros [<-|HI] NH.
  - destruct (o_type x) eqn:ET; try congruence; cbn [map assoc fst snd]; rewrite String.eqb_refl; reflexivity.
  - assert (NE : String.eqb (o_dest o) (o_dest x) = false) by (apply String.eqb_neq; intros E; apply NI; rewrite <- E; apply in_map; auto).
    destruct (o_type x); cbn [map assoc fst snd]; rewrite ?NE; auto.
Qed.
Theorem command_line ss : Forall (allowed opts) ss ->
  (forall ns, parse_args py_int py_float opts (flat_map written ss) = Ok ns -> forall o, In o opts -> o_type o <> THelp -> exists a, assoc (o_dest o) ns = Ok a /\ attribute_is py_int py_float ss o a) /\
  ((forall s o, In s ss -> In o opts -> o_flag o = s_option s -> exists a, reads py_int py_float (o_type o) (s_text s) a) -> exists ns, parse_args py_int py_float opts (flat_map written ss) = Ok ns) /\
  ((exists s o, In s ss /\ In o opts /\ o_flag o = s_option s /\ forall a, ~ reads py_int py_float (o_type o) (s_text s) a) -> parse_args py_int py_float opts (flat_map written ss) = Err OtherError).
Proof.
  intros HA. split; [|split].
  - intros ns HP o HI NH. pose proof (parse_sound ss HA _ _ HP o HI) as H. unfold attribute_is. destruct (last_for (o_flag o) ss) as [s|].
    + destruct H as (a & R & E). exists a. auto.
    + exists (o_default o). split; auto. rewrite H. apply default_of; auto.
  - intros HR. apply parse_complete; auto.
  - intros HN. apply parse_exits; auto.
Qed.
End Line.

Lemma nodup_strings (l : list string) : (fix nd l := match l with [] => true | x :: r => (negb (existsb (String.eqb x) r) && nd r)%bool end) l = true -> NoDup l.
Proof.
  induction l as [|x l IH]; intros H; [constructor|]. apply andb_prop in H. destruct H as [H1 H2]. constructor; [|apply IH; exact H2].
  intros HI. apply negb_true_iff in H1. assert (existsb (String.eqb x) l = true) by (apply existsb_exists; exists x; split; auto; apply String.eqb_refl). congruence.
Qed.
Lemma base_declared : declared base_options.
Proof. split; [apply nodup_strings; reflexivity|]. split; [apply nodup_strings; reflexivity|]. repeat constructor; try reflexivity; discriminate. Qed.
Lemma parser_declared : declared parser_options.
Proof. split; [apply nodup_strings; reflexivity|]. split; [apply nodup_strings; reflexivity|]. repeat constructor; try reflexivity; discriminate. Qed.

(** ** A number of splines given on the command line *)
Definition is_err {A} (r : result A) : Prop := exists e, r = Err e.
Lemma bind_err {A B} (r : result A) (f : A -> result B) : is_err r \/ (forall a, r = Ok a -> is_err (f a)) -> is_err (rbind r f).
Proof. intros [(e & ->)|H]; [exists e; reflexivity|]. destruct r as [a|e]; [apply H; reflexivity|exists e; reflexivity]. Qed.
Ltac skip_bind := apply bind_err; right; intros ? _.
Lemma mass_bad pe inj nm nq a b : is_err (as_count nm) \/ is_err (as_count nq) -> is_err (setup_bspline_mass_models pe inj nm nq a b).
Proof. intros H. unfold setup_bspline_mass_models. do 4 skip_bind. destruct H as [H|H]; [apply bind_err; auto|]. skip_bind. apply bind_err; auto. Qed.
Lemma spin_bad pe inj na nt : is_err (as_count na) \/ is_err (as_count nt) -> is_err (setup_bspline_spin_models pe inj na nt false na nt).
Proof. intros H. unfold setup_bspline_spin_models. do 4 skip_bind. destruct H as [H|H]; [do 7 skip_bind|]; apply bind_err; auto. Qed.
Lemma redshift_bad dV pe inj n : is_err (as_count n) -> is_err (setup_powerlaw_spline_redshift_model dV pe inj n).
Proof. intros H. unfold setup_powerlaw_spline_redshift_model. do 2 skip_bind. destruct (flat _); [exists ValueError; reflexivity|]. match goal with |- context [match ?l with _ => _ end] => destruct l end; [exists ValueError; reflexivity|]. apply bind_err; auto. Qed.
Lemma setup_bad dV pe inj nm nq na nct nz a b : is_err (as_count nm) \/ is_err (as_count nq) \/ is_err (as_count na) \/ is_err (as_count nct) \/ is_err (as_count nz) ->
  is_err (example_setup dV pe inj nm nq na nct nz a b).
Proof.
  intros H. unfold example_setup. apply bind_err. destruct H as [H|[H|H]]; [left; apply mass_bad; auto|left; apply mass_bad; auto|right; intros mass _].
  apply bind_err. destruct H as [H|[H|H]]; [left; apply spin_bad; auto|left; apply spin_bad; auto|right; intros [mag tilt] _].
  apply bind_err. left. apply redshift_bad. auto.
Qed.

Lemma last_for_in n ss : In n (map s_option ss) -> exists s, last_for n ss = Some s /\ In s ss /\ s_option s = n.
Proof.
  induction ss as [|s ss IH]; [intros []|]. cbn [map last_for]. intros HI. destruct (last_for n ss) as [s'|] eqn:EL.
  - assert (HN : In n (map s_option ss)).
    { clear HI IH. revert s' EL. induction ss as [|x l IH]; cbn; [discriminate|]. intros s'. destruct (last_for n l) eqn:E2; [intros _; right; eapply IH; eauto|]. destruct (String.eqb_spec (s_option x) n); [auto|discriminate]. }
    destruct (IH HN) as (s2 & E2 & I2 & O2). injection E2 as ->. exists s2. repeat split; auto. right. auto.
  - destruct HI as [<-|HI]; [|destruct (IH HI) as (s2 & E2 & _); discriminate]. rewrite String.eqb_refl. exists s. repeat split; auto. left. auto.
Qed.
Lemma string_given py_int py_float ss ns o : Forall (allowed base_options) ss -> parse_args py_int py_float base_options (flat_map written ss) = Ok ns -> In o base_options -> o_type o = TStr -> In (o_flag o) (map s_option ss) ->
  exists v, assoc (o_dest o) ns = Ok (AStr v).
Proof.
  intros HA HP HI ET HN. destruct (command_line py_int py_float base_options base_declared ss HA) as (H & _). destruct (H ns HP o HI) as (a & EA & AT); [congruence|].
  unfold attribute_is in AT. destruct (last_for_in _ _ HN) as (s & EL & _). rewrite EL, ET in AT. inversion AT; subst. eauto.
Qed.
Lemma splines_given py_int py_float ss ns n dV pe inj : Forall (allowed base_options) ss -> parse_args py_int py_float base_options (flat_map written ss) = Ok ns -> In n spline_options -> In n (map s_option ss) ->
  exists e, run_setup dV ns pe inj = Err e.
Proof.
  intros HA HP HI HN. unfold run_setup.
  assert (BAD : forall v, is_err (as_count (AStr v))) by (intros v; exists TypeError; reflexivity).
  assert (G : forall o, In o base_options -> o_type o = TStr -> o_flag o = n -> exists v, assoc (o_dest o) ns = Ok (AStr v)) by (intros o I1 I2 I3; eapply string_given; eauto; rewrite I3; auto).
  apply bind_err. right. intros nm Em. apply bind_err. right. intros nq Eq. apply bind_err. right. intros na Ea. apply bind_err. right. intros nct Ect. apply bind_err. right. intros nz Ez.
  do 2 skip_bind. destruct a; try (exists TypeError; reflexivity). destruct a0; try (exists TypeError; reflexivity). apply setup_bad.
  cbn [In spline_options] in HI. destruct HI as [E|[E|[E|[E|[E|[]]]]]]; subst n.
  - destruct (G (Decl "--m-nsplines" "m_nsplines" TStr (AInt 50))) as (v & EV); auto; [cbn; tauto|]. cbn [o_dest] in EV. rewrite EV in Em. injection Em as <-. left. apply BAD.
  - destruct (G (Decl "--q-nsplines" "q_nsplines" TStr (AInt 30))) as (v & EV); auto; [cbn; tauto|]. cbn [o_dest] in EV. rewrite EV in Eq. injection Eq as <-. right; left. apply BAD.
  - destruct (G (Decl "--a-nsplines" "a_nsplines" TStr (AInt 16))) as (v & EV); auto; [cbn; tauto|]. cbn [o_dest] in EV. rewrite EV in Ea. injection Ea as <-. right; right; left. apply BAD.
  - destruct (G (Decl "--tilt-nsplines" "tilt_nsplines" TStr (AInt 16))) as (v & EV); auto; [cbn; tauto|]. cbn [o_dest] in EV. rewrite EV in Ect. injection Ect as <-. right; right; right; left. apply BAD.
  - destruct (G (Decl "--z-nsplines" "z_nsplines" TStr (AInt 20))) as (v & EV); auto; [cbn; tauto|]. cbn [o_dest] in EV. rewrite EV in Ez. injection Ez as <-. right; right; right; right. apply BAD.
Qed.
Lemma save_plots_true py_int py_float ss ns s v : Forall (allowed base_options) ss -> parse_args py_int py_float base_options (flat_map written ss) = Ok ns ->
  last_for "--save-plots" ss = Some s -> s_text s = Some v -> v <> "" -> assoc "save_plots" ns = Ok (ABool true).
Proof.
  intros HA HP HL HT HV. destruct (command_line py_int py_float base_options base_declared ss HA) as (H & _).
  destruct (H ns HP (Decl "--save-plots" "save_plots" TBool (ABool true))) as (a & EA & AT); [cbn; tauto|discriminate|]. unfold attribute_is in AT. cbn [o_flag o_type o_dest] in *. rewrite HL, HT in AT.
  inversion AT; subst. rewrite EA. apply String.eqb_neq in HV. rewrite HV. reflexivity.
Qed.
(** without spline options the set-up gets the defaults *)
Lemma splines_default py_int py_float ss ns : Forall (allowed base_options) ss -> parse_args py_int py_float base_options (flat_map written ss) = Ok ns -> (forall n, In n spline_options -> ~ In n (map s_option ss)) ->
  assoc "m_nsplines" ns = Ok (AInt 50) /\ assoc "q_nsplines" ns = Ok (AInt 30) /\ assoc "a_nsplines" ns = Ok (AInt 16) /\ assoc "tilt_nsplines" ns = Ok (AInt 16) /\ assoc "z_nsplines" ns = Ok (AInt 20).
Proof.
  intros HA HP HN. destruct (command_line py_int py_float base_options base_declared ss HA) as (H & _).
  assert (NL : forall n, ~ In n (map s_option ss) -> last_for n ss = None).
  { intros n. clear. induction ss as [|s ss IH]; auto. cbn [map last_for]. intros HI. rewrite IH; [|intros HX; apply HI; right; auto]. destruct (String.eqb_spec (s_option s) n); auto. exfalso. apply HI. left. auto. }
  assert (G : forall o, In o base_options -> o_type o <> THelp -> In (o_flag o) spline_options -> assoc (o_dest o) ns = Ok (o_default o)).
  { intros o I1 I2 I3. destruct (H ns HP o I1 I2) as (a & EA & AT). unfold attribute_is in AT. rewrite NL in AT by (apply HN; auto). subst a. auto. }
  repeat split.
  - apply (G (Decl "--m-nsplines" "m_nsplines" TStr (AInt 50))); [cbn; tauto|discriminate|cbn; tauto].
  - apply (G (Decl "--q-nsplines" "q_nsplines" TStr (AInt 30))); [cbn; tauto|discriminate|cbn; tauto].
  - apply (G (Decl "--a-nsplines" "a_nsplines" TStr (AInt 16))); [cbn; tauto|discriminate|cbn; tauto].
  - apply (G (Decl "--tilt-nsplines" "tilt_nsplines" TStr (AInt 16))); [cbn; tauto|discriminate|cbn; tauto].
  - apply (G (Decl "--z-nsplines" "z_nsplines" TStr (AInt 20))); [cbn; tauto|discriminate|cbn; tauto].
Qed.
