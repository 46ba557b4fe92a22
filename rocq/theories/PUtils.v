(** Proofs about pipeline/utils.py. *)
From Coq Require Import Lia.
From Verif Require Export SpecUtils.
From Verif Require Import PConstruct PAnalysisNames.
Open Scope R_scope.
Open Scope string_scope.
Open Scope list_scope.

(** ** C70 *)
Lemma ignoredb_spec ig e : ignoredb ig e = true <-> ignored ig e.
Proof.
  destruct ig as [names|]; cbn; [|easy]. rewrite existsb_exists. split.
  - intros [x [H1 H2]]. apply String.eqb_eq in H2. now subst.
  - intros H. exists e. split; [exact H | apply String.eqb_refl].
Qed.
Lemma keep_mask_spec events names : keep_mask events names = map (fun e => negb (existsb (String.eqb e) names)) events.
Proof.
  unfold keep_mask.
  assert (G : forall g, fold_left (fun sel gw => map2 orb sel (map (fun e => String.eqb e gw) events)) names (map g events)
              = map (fun e => (g e || existsb (String.eqb e) names)%bool) events).
  { induction names as [|n names IH]; intros g; cbn [fold_left existsb].
    - apply map_ext. intros; now rewrite Bool.orb_false_r.
    - rewrite map2_map_same, IH. apply map_ext. intros e. now rewrite Bool.orb_assoc. }
  rewrite (G (fun _ => false)), map_map. reflexivity.
Qed.
Lemma mask_filter {A} (p : string -> bool) events (l : list A) : length l = length events ->
  mask (map p events) l = map snd (filter (fun er => p (fst er)) (combine events l)).
Proof.
  revert l; induction events as [|e events IH]; intros [|x l]; cbn; intros H; try lia; auto.
  rewrite IH by lia. destruct (p e); reflexivity.
Qed.
Lemma index_of_nth ks i k : NoDup ks -> nth_error ks i = Some k -> index_of k ks = Ok i.
Proof.
  revert i; induction ks as [|x ks IH]; intros [|i] ND; cbn; try discriminate.
  - intros [= ->]. now rewrite String.eqb_refl.
  - intros H. apply NoDup_cons_iff in ND. destruct ND as [N1 N2]. destruct (String.eqb_spec k x).
    + subst. apply nth_error_In in H. now destruct N1.
    + rewrite (IH i N2 H). reflexivity.
Qed.
Lemma dict_of_ok {A} (f : string -> result A) g ks : (forall k, In k ks -> f k = Ok (g k)) -> forall d, NoDup (keys d ++ ks) ->
  dict_of f ks d = Ok (d ++ map (fun k => (k, g k)) ks).
Proof.
  induction ks as [|k ks IH]; intros H d ND; cbn [dict_of map]; [now rewrite app_nil_r|].
  rewrite (H k) by now left. cbn [rbind]. pose proof (NoDup_remove_2 _ _ _ ND) as N2.
  rewrite dset_fresh by (intro I; apply N2, in_or_app; now left). rewrite IH.
  - rewrite <- app_assoc. reflexivity.
  - intros; apply H; now right.
  - unfold keys. rewrite map_app. cbn. rewrite <- app_assoc. exact ND.
Qed.
Lemma assoc_map_keys {A} (g : string -> A) ks k : In k ks -> assoc k (map (fun k => (k, g k)) ks) = Ok (g k).
Proof.
  induction ks as [|x ks IH]; cbn; [easy|]. intros [->|H]; [now rewrite String.eqb_refl|].
  destruct (String.eqb_spec k x); [now subst | auto].
Qed.

Theorem load_drops f ignore : good_file f -> exists pe inj,
  load_pe_and_injections_as_dict f ignore = Ok (pe, inj, Constants (i_total f) (i_time f) (length (i_post f)), i_pe_params f) /\
  keys pe = i_pe_params f /\ keys inj = i_inj_params f /\
  (forall i k, nth_error (i_pe_params f) i = Some k -> assoc k pe = Ok (map (fun er => nth i (snd er) []) (remaining f ignore))) /\
  (forall i k, nth_error (i_inj_params f) i = Some k -> assoc k inj = Ok (nth i (i_inj f) [])).
Proof.
  intros [L [N1 N2]].
  set (g := fun k => match index_of k (i_pe_params f) with
                     | Ok i => map (fun er => nth i (snd er) []) (remaining f ignore) | Err _ => [] end).
  set (h := fun k => match index_of k (i_inj_params f) with Ok i => nth i (i_inj f) [] | Err _ => [] end).
  exists (map (fun k => (k, g k)) (i_pe_params f)), (map (fun k => (k, h k)) (i_inj_params f)).
  unfold load_pe_and_injections_as_dict.
  rewrite (dict_of_ok _ g (i_pe_params f)); [| |exact N1].
  - cbn [rbind app]. rewrite (dict_of_ok _ h (i_inj_params f)); [| |exact N2].
    + cbn [rbind app]. unfold keys. rewrite !map_map. cbn. rewrite !map_id. split; [reflexivity|]. split; [reflexivity|]. split; [reflexivity|].
      split; intros i k Hk; rewrite assoc_map_keys by (eapply nth_error_In; eauto).
      * unfold g. now rewrite (index_of_nth _ _ _ N1 Hk).
      * unfold h. now rewrite (index_of_nth _ _ _ N2 Hk).
    + intros k Hk. apply In_nth_error in Hk. destruct Hk as [i Hi]. unfold h. rewrite (index_of_nth _ _ _ N2 Hi). reflexivity.
  - intros k Hk. apply In_nth_error in Hk. destruct Hk as [i Hi]. unfold g, sel_param. rewrite (index_of_nth _ _ _ N1 Hi). cbn [rbind].
    apply f_equal. unfold remaining, ignoredb. destruct ignore as [names|].
    + rewrite keep_mask_spec, mask_filter by now rewrite map_length.
      clear - L. revert L. generalize (i_events f) (i_post f). intros es. induction es as [|e es IH]; intros [|r rs]; cbn; intros L; try lia; auto.
      destruct (existsb (String.eqb e) names); cbn; rewrite IH by lia; reflexivity.
    + clear - L. revert L. generalize (i_events f) (i_post f). intros es. induction es as [|e es IH]; intros [|r rs]; cbn; intros L; try lia; auto.
      now rewrite IH by lia.
Qed.

Lemma filter_all {A} (p : A -> bool) l : (forall x, In x l -> p x = true) -> filter p l = l.
Proof. induction l as [|a l IH]; cbn; intros H; [reflexivity|]. rewrite H by now left. f_equal. apply IH. intros; apply H; now right. Qed.
Theorem nobs_partial f ignore : good_file f -> (forall e, In e (i_events f) -> ~ ignored ignore e) ->
  exists pe inj k ps, load_pe_and_injections_as_dict f ignore = Ok (pe, inj, k, ps) /\ k_nobs k = length (remaining f ignore).
Proof.
  intros G H. destruct (load_drops f ignore G) as [pe [inj [E _]]]. do 4 eexists. split; [exact E|]. cbn.
  unfold remaining. rewrite filter_all.
  - rewrite combine_length. destruct G as [L _]. lia.
  - intros [e r] Hin. cbn. apply in_combine_l in Hin. destruct (ignoredb ignore e) eqn:Eb; [|reflexivity].
    apply ignoredb_spec in Eb. now apply H in Eb.
Qed.

(** ** C71 *)
Definition vec (rv : string -> nat -> num) (name : string) (n : nat) : list num := map (rv name) (seq 0 n).
Lemma vec_length rv name n : length (vec rv name n) = n.
Proof. unfold vec. now rewrite map_length, seq_length. Qed.
Lemma sample_smoothed_ok rv s f sig n t deg :
  sample_smoothed rv s f sig (Some n) (Some t) deg =
  ([SNormal s sig (vec rv s n); SFactor f (apply_difference_prior (vec rv s n) t deg)], Ok (vec rv s n)).
Proof. reflexivity. Qed.

(** ** C72 *)
Lemma union_dict {A} (d d' : dict A) : NoDup (keys d ++ keys d') -> union d d' = d ++ d'.
Proof. intros H. unfold union. apply fold_dset. exact H. Qed.
Lemma map_keys_nodup {A B} (g : string -> string) (f : string * A -> B) (d : dict A) :
  (forall a b, g a = g b -> a = b) -> NoDup (keys d) -> NoDup (keys (map (fun kv => (g (fst kv), f kv)) d)).
Proof.
  intros Hg H. unfold keys. rewrite map_map. cbn. rewrite <- (map_map fst g). now apply FinFun.Injective_map_NoDup.
Qed.
Lemma sapp_inv_tail a b c : (a ++ c = b ++ c)%string -> a = b.
Proof. intros H. apply (f_equal L) in H. rewrite !L_app in H. apply app_inv_tail in H. now apply L_inj. Qed.

Lemma pdf_unchanged pdfs grid n : fst (pdf_dict_to_xarray pdfs grid n None) = pdfs.
Proof. reflexivity. Qed.

Lemma sizes_agree_spec l : sizes_agree l = true <-> forall k a b, In (k, a) l -> In (k, b) l -> a = b.
Proof.
  unfold sizes_agree. rewrite forallb_forall. split.
  - intros H k a b Ha Hb. specialize (H _ Ha). rewrite forallb_forall in H. specialize (H _ Hb). cbn in H. rewrite String.eqb_refl in H. now apply Nat.eqb_eq.
  - intros H [k a] Ha. apply forallb_forall. intros [k' b] Hb. cbn. destruct (String.eqb_spec k k'); [|reflexivity]. subst. cbn.
    apply Nat.eqb_eq. eauto.
Qed.

Lemma coords_sizes grid n k m : is_dict grid -> ~ In "draw" (keys grid) ->
  In (k, m) (map (fun kc => (fst kc, length (snd kc))) (coords_of grid n)) -> (k = "draw" /\ m = n) \/ exists g, assoc k grid = Ok g /\ length g = m.
Proof.
  intros ND N. unfold coords_of. rewrite union_dict.
  - rewrite map_app. intros H. apply in_app_or in H. destruct H as [H|[H|[]]].
    + right. apply in_map_iff in H. destruct H as [[k' g] [E H]]. cbn in E. injection E as <- <-. exists g. split; [|reflexivity]. now apply in_assoc.
    + left. cbn in H. injection H as <- <-. split; [reflexivity|]. now rewrite map_length, seq_length.
  - apply NoDup_app_; [exact ND | repeat constructor; easy |]. intros x Hx [<-|[]]. contradiction.
Qed.

Lemma assoc_app {A} k (a b : dict A) : assoc k (a ++ b) = match assoc k a with Ok v => Ok v | Err _ => assoc k b end.
Proof. induction a as [|[k' v] a IH]; cbn; [reflexivity|]. destruct (String.eqb k k'); auto. Qed.

(** every variable that fits makes a data set *)
Lemma dataset_ok (vars : dvars) grid n : is_dict grid -> ~ In "draw" (keys grid) ->
  (forall name dims oa, In (name, (dims, oa)) vars -> exists key a, dims = ["draw"; key] /\ oa = Some a /\ key <> "draw" /\ fits n grid key a) ->
  dataset vars (coords_of grid n) = Ok (vars, coords_of grid n).
Proof.
  intros ND N H. unfold dataset. replace (_ && _)%bool with true; [reflexivity|]. symmetry. apply Bool.andb_true_iff. split.
  - apply forallb_forall. intros [name [dims oa]] Hin. destruct (H _ _ _ Hin) as [key [a [-> [-> _]]]]. reflexivity.
  - apply sizes_agree_spec.
    assert (S : forall k m, In (k, m) (flat_map (fun kv => var_dims (snd kv)) vars ++ map (fun kc => (fst kc, length (snd kc))) (coords_of grid n)) ->
      (k = "draw" /\ m = n) \/ (k <> "draw" /\ exists g, assoc k grid = Ok g /\ length g = m)).
    { intros k m Hin. apply in_app_or in Hin. destruct Hin as [Hin|Hin].
      - apply in_flat_map in Hin. destruct Hin as [[name [dims oa]] [Hv Hin]]. destruct (H _ _ _ Hv) as [key [a [-> [-> [Nk [F1 F2]]]]]].
        cbn in Hin. destruct Hin as [[= <- <-]|[[= <- <-]|[]]]; auto.
      - apply coords_sizes in Hin; auto. destruct Hin as [Hin|Hin]; [auto|]. right. split; [|exact Hin]. intros ->. apply N, assoc_keys. destruct Hin as [g [Hg _]]. eauto. }
    intros k a b Ha Hb. apply S in Ha, Hb.
    destruct Ha as [[-> ->]|[N1 [g [G1 G2]]]], Hb as [[E ->]|[N2 [g' [G3 G4]]]]; try congruence.
Qed.

Theorem pdf_export_single pdfs grid n : is_dict pdfs -> is_dict grid -> ~ In "draw" (keys grid) ->
  (forall key v, In (key, v) pdfs -> exists a, v = OnePdf a /\ key <> "draw" /\ fits n grid key a) ->
  exists vars, pdf_dict_to_xarray pdfs grid n None = (pdfs, Ok (vars, coords_of grid n)) /\
    length vars = length pdfs /\
    (forall key a, In (key, OnePdf a) pdfs -> assoc (key ++ "_pdfs")%string vars = Ok (["draw"; key], Some a)).
Proof.
  intros Dp Dg N H.
  set (vars := map (fun kv : string * pdf_val => ((fst kv ++ "_pdfs")%string, (["draw"; fst kv], whole (snd kv)))) pdfs).
  assert (NDv : NoDup (keys vars)).
  { apply (map_keys_nodup (fun k => (k ++ "_pdfs")%string) (fun kv => (["draw"; fst kv], whole (snd kv)))); [|exact Dp].
    intros a b. apply sapp_inv_tail. }
  exists vars. unfold pdf_dict_to_xarray. fold (coords_of grid n). fold vars.
  rewrite (union_dict [] vars) by exact NDv. cbn [app]. split; [|split].
  - apply (f_equal (pair pdfs)). apply dataset_ok; auto. intros name dims oa Hin. unfold vars in Hin. apply in_map_iff in Hin.
    destruct Hin as [[key v] [E Hin]]. cbn in E. injection E as <- <- <-. destruct (H _ _ Hin) as [a [-> [Nk F]]]. exists key, a. auto.
  - unfold vars. apply map_length.
  - intros key a Hin. apply in_assoc; [exact NDv|]. unfold vars. apply in_map_iff. exists (key, OnePdf a). auto.
Qed.

(** with sub-populations *)
Lemma single_vars_ok i nm (pdfs : dict pdf_val) (pick : string -> arr2) :
  (forall key v, In (key, v) pdfs -> pdf_item v i = Ok (Some (pick key))) ->
  single_vars i nm pdfs = Ok (map (fun key => ((nm ++ "_" ++ key ++ "_pdfs")%string, (["draw"; key], Some (pick key)))) (keys pdfs)).
Proof.
  induction pdfs as [|[key v] pdfs IH]; intros H; [reflexivity|]. cbn [single_vars]. rewrite (H key v) by now left. cbn [rbind].
  rewrite IH by (intros; apply H; now right). reflexivity.
Qed.
Definition var_block (pick : nat -> string -> arr2) (ks : list string) (i : nat) (nm : string) : dvars :=
  map (fun key => ((nm ++ "_" ++ key ++ "_pdfs")%string, (["draw"; key], Some (pick i key)))) ks.
Fixpoint var_blocks (pick : nat -> string -> arr2) (ks : list string) (i : nat) (names : list string) : dvars :=
  match names with [] => [] | nm :: r => var_block pick ks i nm ++ var_blocks pick ks (S i) r end.
Lemma NoDup_app_l {A} (l m : list A) : NoDup (l ++ m) -> NoDup l.
Proof. induction l as [|a l IH]; cbn; intros H; [constructor|]. inversion H; subst. constructor; auto. intro; apply H2, in_or_app; now left. Qed.
Lemma all_vars_ok (pdfs : dict pdf_val) pick names : forall i d,
  (forall j key v, (i <= j < i + length names)%nat -> In (key, v) pdfs -> pdf_item v j = Ok (Some (pick j key))) ->
  NoDup (keys d ++ keys (var_blocks pick (keys pdfs) i names)) ->
  all_vars i names pdfs d = Ok (d ++ var_blocks pick (keys pdfs) i names).
Proof.
  induction names as [|nm names IH]; intros i d H ND; cbn [all_vars var_blocks] in *; [now rewrite app_nil_r|].
  rewrite (single_vars_ok i nm pdfs (pick i)) by (intros; apply H; cbn; [lia | assumption]). cbn [rbind].
  fold (var_block pick (keys pdfs) i nm). unfold keys in ND at 2. rewrite map_app in ND. fold (keys (var_block pick (keys pdfs) i nm)) in ND.
  assert (N1 : NoDup (keys d ++ keys (var_block pick (keys pdfs) i nm))).
  { rewrite app_assoc in ND. apply NoDup_app_l in ND. exact ND. }
  rewrite union_dict by exact N1. rewrite IH.
  - rewrite <- app_assoc. reflexivity.
  - intros j key v Hj. apply H. cbn. lia.
  - unfold keys at 1. rewrite map_app. fold (keys d). fold (keys (var_block pick (keys pdfs) i nm)).
    rewrite <- app_assoc. exact ND.
Qed.
Lemma var_blocks_in pick ks names : forall i j nm key, nth_error names j = Some nm -> In key ks ->
  In ((nm ++ "_" ++ key ++ "_pdfs")%string, (["draw"; key], Some (pick (i + j)%nat key))) (var_blocks pick ks i names).
Proof.
  induction names as [|n names IH]; intros i [|j] nm key; cbn; try discriminate.
  - intros [= ->] Hk. apply in_or_app. left. rewrite Nat.add_0_r. apply in_map_iff. exists key. auto.
  - intros Hj Hk. apply in_or_app. right. rewrite Nat.add_succ_r, <- Nat.add_succ_l. apply IH; auto.
Qed.
Lemma var_blocks_shape pick ks names : forall i name dims oa, In (name, (dims, oa)) (var_blocks pick ks i names) ->
  exists j nm key, (i <= j < i + length names)%nat /\ nth_error names (j - i) = Some nm /\ In key ks /\ name = (nm ++ "_" ++ key ++ "_pdfs")%string /\ dims = ["draw"; key] /\ oa = Some (pick j key).
Proof.
  induction names as [|n names IH]; intros i name dims oa; cbn; [easy|]. intros H. apply in_app_or in H. destruct H as [H|H].
  - apply in_map_iff in H. destruct H as [key [E Hk]]. injection E as <- <- <-. exists i, n, key. rewrite Nat.sub_diag. repeat split; auto; lia.
  - apply IH in H. destruct H as [j [nm [key [Hj [Hn H]]]]]. exists j, nm, key. split; [lia|]. split; [|exact H].
    replace (j - i)%nat with (S (j - S i)) by lia. exact Hn.
Qed.
Lemma del_keys {A} k (d : dict A) : NoDup (keys d) -> forall x v, In (x, v) (del k d) <-> In (x, v) d /\ x <> k.
Proof.
  induction d as [|[k' v'] d IH]; cbn; [easy|]. intros ND x v. apply NoDup_cons_iff in ND. destruct ND as [N1 N2].
  destruct (String.eqb_spec k k').
  - subst k'. split.
    + intros H. split; [auto|]. intros ->. apply N1. now apply (in_map fst) in H.
    + intros [[[= -> ->]|H] Nx]; [easy | exact H].
  - cbn. rewrite IH by exact N2. split; [intros [[= -> ->]|[H1 H2]]; auto | intros [[H|H] Nx]; auto].
Qed.
Lemma del_nodup {A} k (d : dict A) : NoDup (keys d) -> NoDup (keys (del k d)).
Proof.
  induction d as [|[k' v'] d IH]; cbn; [auto|]. intros ND. pose proof ND as ND'. apply NoDup_cons_iff in ND. destruct ND as [N1 N2].
  destruct (String.eqb k k'); [exact N2|]. cbn. apply NoDup_cons; [|auto]. intros H. apply N1.
  unfold keys in H. apply in_map_iff in H. destruct H as [[x v] [E H]]. cbn in E. subst. apply del_keys in H; [|exact N2]. destruct H as [H _]. now apply (in_map fst) in H.
Qed.

Theorem pdf_export_subpops pdfs grid n names :
  is_dict pdfs -> is_dict grid -> ~ In "draw" (keys grid) -> In "redshift" (keys pdfs) ->
  (* distinct sub-population / parameter pairs get distinct names *)
  (forall nm nm' key key' , In nm names -> In nm' names -> In key (keys pdfs) -> In key' (keys pdfs) ->
     (nm ++ "_" ++ key = nm' ++ "_" ++ key')%string -> nm = nm' /\ key = key') -> NoDup names ->
  (forall key v, In (key, v) pdfs -> key <> "redshift" -> exists l, v = PerPop l /\ length l = length names /\ key <> "draw" /\ Forall (fits n grid key) l) ->
  exists vars, pdf_dict_to_xarray pdfs grid n (Some names) = (del "redshift" pdfs, Ok (vars, coords_of grid n)) /\
    (forall j nm key l a, nth_error names j = Some nm -> In (key, PerPop l) pdfs -> key <> "redshift" -> nth_error l j = Some a ->
       assoc (nm ++ "_" ++ key ++ "_pdfs")%string vars = Ok (["draw"; key], Some a)) /\
    (forall name v, In (name, v) vars -> exists nm key, In nm names /\ In key (keys pdfs) /\ key <> "redshift" /\ name = (nm ++ "_" ++ key ++ "_pdfs")%string).
Proof.
  intros Dp Dg N Hz Hinj Hnd H.
  set (rest := del "redshift" pdfs).
  assert (Hrest : forall key v, In (key, v) rest <-> In (key, v) pdfs /\ key <> "redshift") by (intros; apply del_keys; exact Dp).
  assert (NDr : NoDup (keys rest)) by (apply del_nodup; exact Dp).
  set (pick := fun j key => match assoc key rest with Ok (PerPop l) => nth j l (Arr2 0 []) | _ => Arr2 0 [] end).
  assert (Hkeys : forall key, In key (keys rest) -> In key (keys pdfs) /\ key <> "redshift").
  { intros key Hk. apply assoc_keys in Hk. destruct Hk as [v Hv]. apply assoc_in in Hv. apply Hrest in Hv. destruct Hv as [Hv Hne]. split; [now apply (in_map fst) in Hv | exact Hne]. }
  assert (NDb : NoDup (keys (var_blocks pick (keys rest) 0 names))).
  { assert (G : forall ns i, incl ns names -> NoDup ns -> NoDup (keys (var_blocks pick (keys rest) i ns))).
    { induction ns as [|nm ns IH]; intros i I ND; cbn; [constructor|]. unfold keys. rewrite map_app. apply NoDup_cons_iff in ND. destruct ND as [N1 N2].
      assert (B : forall i' nm', map fst (var_block pick (keys rest) i' nm') = map (fun key => (nm' ++ "_" ++ key ++ "_pdfs")%string) (keys rest))
        by (intros; unfold var_block; rewrite map_map; reflexivity).
      apply NoDup_app_.
      - rewrite B. apply FinFun.Injective_map_NoDup; [|exact NDr].
        intros a b E. apply (f_equal L) in E. rewrite !L_app in E. apply app_inv_head in E. apply app_inv_head in E. apply app_inv_tail in E. now apply L_inj.
      - apply IH; [intros x Hx; apply I; now right | exact N2].
      - intros x H1 H2. rewrite B in H1. apply in_map_iff in H1. destruct H1 as [key [<- Hk]].
        apply in_map_iff in H2. destruct H2 as [[nme [dms oa]] [E2 H2]]. cbn in E2.
        apply var_blocks_shape in H2. destruct H2 as [j [nm' [key' [_ [Hn [Hk' [Enme _]]]]]]].
        apply nth_error_In in Hn. rewrite Enme in E2.
        assert (E3 : (nm' ++ "_" ++ key' = nm ++ "_" ++ key)%string).
        { apply (sapp_inv_tail _ _ "_pdfs"). rewrite !sapp_assoc. exact E2. }
        destruct (Hinj nm' nm key' key) as [-> _]; auto; try (apply I; now right); try (apply I; now left); try now apply Hkeys. }
    apply G; [apply incl_refl | exact Hnd]. }
  exists (var_blocks pick (keys rest) 0 names). unfold pdf_dict_to_xarray.
  destruct (proj1 (assoc_keys "redshift" pdfs) Hz) as [zv Ez]. rewrite Ez. fold rest. fold (coords_of grid n).
  rewrite (all_vars_ok rest pick names 0 []).
  - cbn [rbind app]. split; [|split].
    + apply (f_equal (pair rest)). apply dataset_ok; auto. intros name dims oa Hin. apply var_blocks_shape in Hin.
      destruct Hin as [j [nm [key [Hj [Hn [Hk [_ [-> ->]]]]]]]]. exists key, (pick j key). split; [reflexivity|]. split; [reflexivity|].
      apply assoc_keys in Hk. destruct Hk as [v Hv]. pose proof (assoc_in _ _ _ Hv) as Hin. apply Hrest in Hin. destruct Hin as [Hin Hne].
      destruct (H _ _ Hin Hne) as [l [-> [Ll [Nk F]]]]. split; [exact Nk|]. unfold pick. rewrite Hv. rewrite Forall_forall in F. apply F. apply nth_In. lia.
    + intros j nm key l a Hj Hin Hne Ha. apply in_assoc; [exact NDb|].
      assert (Hv : assoc key rest = Ok (PerPop l)) by (apply in_assoc; [exact NDr | apply Hrest; auto]).
      replace a with (pick j key) by (unfold pick; rewrite Hv; now apply nth_error_nth).
      apply (var_blocks_in pick (keys rest) names 0 j); [exact Hj|]. apply assoc_keys. eauto.
    + intros name [dims oa] Hin. apply var_blocks_shape in Hin. destruct Hin as [j [nm [key [_ [Hn [Hk [-> _]]]]]]].
      exists nm, key. apply nth_error_In in Hn. destruct (Hkeys _ Hk). auto.
  - intros j key v Hj Hin. apply in_assoc in Hin as Hv; [|exact NDr]. apply Hrest in Hin. destruct Hin as [Hin Hne].
    destruct (H _ _ Hin Hne) as [l [-> [Ll _]]]. cbn. destruct (nth_error l j) as [a|] eqn:Ea; [|apply nth_error_None in Ea; cbn in Hj; lia].
    unfold pick. rewrite Hv. now rewrite (nth_error_nth _ _ _ Ea).
  - exact NDb.
Qed.

(** the posterior export always changes the caller's dictionary *)
Theorem posterior_export_mutates posteriors : posteriors <> [] -> (forall k v, In (k, v) posteriors -> exists a, v = Raw a /\ nd_shape a <> []) ->
  forall k v, In (k, v) (fst (posterior_dict_to_xarray posteriors)) -> exists dims a, v = Wrapped dims a.
Proof.
  intros _ H k v. unfold posterior_dict_to_xarray.
  assert (G : forall todo done, (forall k v, In (k, v) todo -> exists a, v = Raw a /\ nd_shape a <> []) ->
    (forall k v, In (k, v) done -> exists dims a, v = Wrapped dims a) ->
    forall k v, In (k, v) (fst (wrap_all done todo)) -> exists dims a, v = Wrapped dims a).
  { induction todo as [|[k0 v0] todo IH]; intros done Ht Hd; cbn [wrap_all]; [exact Hd|].
    destruct (Ht k0 v0) as [a [-> Hs]]; [now left|]. cbn [wrap]. destruct (nd_shape a) as [|x rest] eqn:Es; [easy|].
    apply IH; [intros; eapply Ht; right; eauto|]. intros k1 v1 Hin. apply in_app_or in Hin. destruct Hin as [Hin|[[= <- <-]|[]]]; eauto. }
  intros Hin. assert (Hin2 : In (k, v) (fst (wrap_all [] posteriors))).
  { destruct (wrap_all [] posteriors) as [d r]. exact Hin. }
  revert Hin2. apply G; [exact H | easy].
Qed.
(** and exports every parameter with its array *)
Lemma wrap_all_ok posteriors : (forall k v, In (k, v) posteriors -> exists a, v = Raw a /\ nd_shape a <> []) -> forall done,
  wrap_all done posteriors = (done ++ map (fun kv => (fst kv, match wrap (fst kv) (snd kv) with Ok v => v | Err _ => snd kv end)) posteriors, Ok tt).
Proof.
  induction posteriors as [|[k v] l IH]; intros H done; cbn [wrap_all map fst snd]; [now rewrite app_nil_r|].
  destruct (H k v) as [a [-> Hs]]; [now left|]. cbn [wrap]. destruct (nd_shape a) as [|x rest] eqn:Es; [easy|].
  rewrite IH by (intros; eapply H; right; eauto). rewrite <- app_assoc. reflexivity.
Qed.
Lemma split_digits c x y d e : is_digit c = false -> Forall (fun c => is_digit c = true) d -> Forall (fun c => is_digit c = true) e ->
  x ++ c :: d = y ++ c :: e -> x = y /\ d = e.
Proof.
  intros Hc. revert y. induction x as [|a x IH]; intros [|b y] Hd He; cbn.
  - intros H. injection H as ->. auto.
  - intros H. injection H as <- H. exfalso. subst d. apply Forall_app in Hd as [_ Hd]. inversion Hd. congruence.
  - intros H. injection H as -> H. exfalso. subst e. apply Forall_app in He as [_ He]. inversion He. congruence.
  - intros H. injection H as -> H. apply IH in H as [-> ->]; auto.
Qed.
Lemma dim_name_inj k k' i j : (k ++ "_dim" ++ dec i = k' ++ "_dim" ++ dec j)%string -> k = k' /\ i = j.
Proof.
  intros H. apply (f_equal L) in H. rewrite !L_app in H. change (L "_dim") with (L "_di" ++ "m"%char :: nil) in H.
  rewrite <- !app_assoc in H. cbn [app] in H. rewrite !app_assoc in H.
  apply split_digits in H; [|reflexivity|apply digits_dec|apply digits_dec]. destruct H as [H1 H2].
  apply app_inv_tail in H1. apply L_inj in H1. apply L_inj, dec_inj in H2. auto.
Qed.
Lemma dim_not_draw k i : (k ++ "_dim" ++ dec i)%string <> "draw".
Proof.
  intros H. apply (f_equal L) in H. rewrite !L_app in H. apply (f_equal (fun l => rev l)) in H. rewrite !rev_app_distr in H.
  pose proof (dec_nonempty i) as N. pose proof (digits_dec i) as Dg. apply Forall_rev in Dg.
  destruct (rev (L (dec i))) as [|c r] eqn:E; [apply (f_equal (@rev _)) in E; rewrite rev_involutive in E; easy|].
  cbn in H. injection H as Hc _. inversion Dg; subst. discriminate.
Qed.

Lemma combine_map_same {A B X} (f : X -> A) (g : X -> B) l : combine (map f l) (map g l) = map (fun x => (f x, g x)) l.
Proof. induction l as [|x l IH]; cbn; [reflexivity | now rewrite IH]. Qed.
Theorem posterior_export posteriors n : is_dict posteriors ->
  (forall k v, In (k, v) posteriors -> exists a rest, v = Raw a /\ nd_shape a = n :: rest) ->
  exists d, snd (posterior_dict_to_xarray posteriors) = Ok d /\ keys d = keys posteriors /\
    forall k a, In (k, Raw a) posteriors -> assoc k d = Ok (Wrapped (dims_for k (length (nd_shape a) - 1)) a).
Proof.
  intros Dp H. unfold posterior_dict_to_xarray. rewrite wrap_all_ok.
  2:{ intros k v Hin. destruct (H _ _ Hin) as [a [rest [-> Hs]]]. exists a. split; [reflexivity|]. rewrite Hs. discriminate. }
  cbn [app snd rbind].
  set (d := map (fun kv => (fst kv, match wrap (fst kv) (snd kv) with Ok v => v | Err _ => snd kv end)) posteriors).
  assert (Hk : keys d = keys posteriors) by (unfold d, keys; rewrite map_map; reflexivity).
  assert (Hd : forall k a rest, In (k, Raw a) posteriors -> nd_shape a = n :: rest -> In (k, Wrapped (dims_for k (length rest)) a) d).
  { intros k a rest Hin Hs. unfold d. apply in_map_iff. exists (k, Raw a). split; [|exact Hin]. cbn. rewrite Hs. reflexivity. }
  exists d. split; [|split; [exact Hk|]].
  - replace (sizes_agree _) with true; [reflexivity|]. symmetry. apply sizes_agree_spec.
    assert (S : forall nm sz, In (nm, sz) (flat_map (fun kv => dims_of (snd kv)) d) ->
      (nm = "draw" /\ sz = n) \/ exists k a i, In (k, Raw a) posteriors /\ nm = (k ++ "_dim" ++ dec (i + 2))%string /\ nth_error (nd_shape a) (S i) = Some sz).
    { intros nm sz Hin. apply in_flat_map in Hin. destruct Hin as [[k v] [Hkv Hin]]. unfold d in Hkv. apply in_map_iff in Hkv.
      destruct Hkv as [[k0 v0] [E Hkv]]. cbn [fst snd] in E. destruct (H _ _ Hkv) as [a [rest [-> Hs]]]. cbn [wrap] in E. rewrite Hs in E. injection E as <- <-.
      cbn [snd dims_of] in Hin. rewrite Hs in Hin. cbn [combine] in Hin. destruct Hin as [[= <- <-]|Hin]; [auto|]. right.
      apply In_nth_error in Hin. destruct Hin as [i Hi0]. exists k0, a, i. split; [exact Hkv|].
      assert (Hi : nth_error (combine (map (fun i => (k0 ++ "_dim" ++ dec (i + 2))%string) (seq 0 (length rest))) rest) i = Some (nm, sz)) by exact Hi0. clear Hi0.
      assert (Li : (i < length rest)%nat).
      { assert (Hl : nth_error (combine (map (fun i => (k0 ++ "_dim" ++ dec (i + 2))%string) (seq 0 (length rest))) rest) i <> None) by congruence.
        apply nth_error_Some in Hl. rewrite combine_length, map_length, seq_length in Hl. lia. }
      rewrite Hs. cbn [nth_error].
      assert (Hc : combine (map (fun i => (k0 ++ "_dim" ++ dec (i + 2))%string) (seq 0 (length rest))) rest =
                   map (fun i => ((k0 ++ "_dim" ++ dec (i + 2))%string, nth i rest O)) (seq 0 (length rest))).
      { clear. rewrite <- (map_id rest) at 2. rewrite (map_nth_seq (fun x => x) rest O).
        apply combine_map_same. }
      rewrite Hc in Hi. rewrite nth_error_map in Hi. rewrite (nth_error_nth' (seq 0 (length rest)) O) in Hi by now rewrite seq_length.
      rewrite seq_nth in Hi by assumption. cbn in Hi. injection Hi as <- <-. split; [reflexivity|]. now apply nth_error_nth'. }
    intros nm a b Ha Hb. apply S in Ha. apply S in Hb.
    destruct Ha as [[-> ->]|[k [x [i [I1 [E1 T1]]]]]], Hb as [[E ->]|[k' [x' [i' [I2 [E2 T2]]]]]]; try reflexivity.
    + symmetry in E2. now apply dim_not_draw in E2.
    + rewrite E in E1. symmetry in E1. now apply dim_not_draw in E1.
    + rewrite E1 in E2. apply dim_name_inj in E2. destruct E2 as [-> E2]. assert (i = i') by lia. subst i'.
      pose proof (in_assoc _ _ _ Dp I1) as A1. pose proof (in_assoc _ _ _ Dp I2) as A2. rewrite A1 in A2. injection A2 as ->. congruence.
  - intros k a Hin. destruct (H _ _ Hin) as [a' [rest [[= <-] Hs]]]. apply in_assoc; [unfold is_dict in Dp; now rewrite Hk|].
    replace (length (nd_shape a) - 1)%nat with (length rest) by (rewrite Hs; cbn; lia). now apply Hd.
Qed.
