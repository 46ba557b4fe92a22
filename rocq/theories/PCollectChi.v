(** Proofs about the loaders end to end, and about the effective-spin prior. *)
From Coq Require Import Lia Lra.
From Verif Require Import PConstruct PUtils NumFacts ArrFacts PSelection PCollectCut PCollectAppend.
From Verif Require Export PCollectPost SpecLoad.
Open Scope R_scope.
Open Scope string_scope.
Open Scope list_scope.

Lemma Forall2_impl_in {A B} (P Q : A -> B -> Prop) l l' : (forall a b, In a l -> P a b -> Q a b) -> Forall2 P l l' -> Forall2 Q l l'.
Proof. intros H F. induction F; constructor; [apply H; auto; now left|apply IHF; intros; apply H; auto; now right]. Qed.

(** ** The injection files, end to end *)
Lemma columns_keys t names prior sel d : injection_columns t names prior sel d ->
  keys d = ["mass_1"; "mass_2"; "mass_ratio"; "redshift"; "prior"] ++ (if wants_spins names then ["a_1"; "cos_tilt_1"; "a_2"; "cos_tilt_2"] else []).
Proof. intros (_ & _ & _ & _ & _ & H). as_model. destruct (wants_spins names); [apply H|exact H]. Qed.
Lemma columns_table t names prior sel d : injection_columns t names prior sel d -> is_table (length sel) d.
Proof.
  intros H. pose proof (columns_keys _ _ _ _ _ H) as K.
  assert (ND : NoDup (keys d)) by (rewrite K; destruct (wants_spins names); cbn; repeat constructor; cbn; intuition discriminate).
  split; auto. apply Forall_forall. intros [k c] Hk. assert (A : assoc k d = Ok c) by now apply in_assoc.
  assert (B : In k (keys d)) by (apply in_map_iff; exists (k, c); auto). cbn [snd].
  destruct H as (H1 & H2 & H3 & H4 & H5 & H6). rewrite K in B.
  assert (L : forall f, Ok c = Ok (map f sel) -> length c = length sel) by (intros f X; apply ok_inj in X; subst c; apply map_length).
  as_model. destruct (wants_spins names); cbn [app] in B; destruct B as [<-|[<-|[<-|[<-|[<-|B]]]]]; try (eapply L; rewrite <- A; eassumption).
  - destruct H6 as [_ H6]. destruct (H6 "1") as [A1 A2]; [cbn; tauto|]. destruct (H6 "2") as [B1 B2]; [cbn; tauto|].
    destruct B as [<-|[<-|[<-|[<-|[]]]]]; eapply L; rewrite <- A; eassumption.
  - destruct B.
Qed.
Lemma columns_cell t names prior sel d k f i : injection_columns t names prior sel d -> assoc k d = Ok (map f sel) -> (i < length sel)%nat -> cell d k i = f (nth i sel O).
Proof. intros _ H Hi. unfold cell. rewrite H. rewrite (nth_indep _ NaN (f O)) by now rewrite map_length. apply map_nth. Qed.

(** the prior of the converted injections, row by row *)
Lemma columns_value t names prior sel d k : injection_columns t names prior sel d -> In k (keys d) -> k <> "prior" -> assoc k d = Ok (map (injection_value t k) sel).
Proof.
  intros H K N. rewrite (columns_keys _ _ _ _ _ H) in K. destruct H as (H1 & H2 & H3 & H4 & H5 & H6).
  as_model. destruct (wants_spins names); cbn [app] in K.
  - destruct H6 as [_ H6]. destruct (H6 "1") as [A1 A2]; [cbn; tauto|]. destruct (H6 "2") as [B1 B2]; [cbn; tauto|].
    destruct K as [<-|[<-|[<-|[<-|[<-|[<-|[<-|[<-|[<-|[]]]]]]]]]]; try (now destruct N); auto.
  - destruct K as [<-|[<-|[<-|[<-|[<-|[]]]]]]; try (now destruct N); auto.
Qed.
Lemma columns_spins t names prior sel d i : injection_columns t names prior sel d -> wants_spins names = true -> (i < length sel)%nat ->
  spins_at d i = injection_spins t prior (nth i sel O).
Proof.
  intros H W Hi. pose proof (columns_keys _ _ _ _ _ H) as K. rewrite W in K. unfold spins_at, injection_spins.
  assert (V : forall k, In k (keys d) -> k <> "prior" -> cell d k i = injection_value t k (nth i sel O)).
  { intros k Hk N. eapply columns_cell; eauto. eapply columns_value; eauto. }
  rewrite !V by (try discriminate; rewrite K; cbn; tauto). f_equal. eapply columns_cell; eauto. apply H.
Qed.
Theorem columns_plain w t names prior sel a : injection_columns t names prior sel (ij_params a) -> ~ In "chi_eff" names -> incl names (available names) ->
  exists a', load_injection_dataset w (Ok a) names = Ok a' /\ ij_total a' = ij_total a /\ ij_time a' = ij_time a /\ plain_columns t names prior sel (ij_params a').
Proof.
  intros H Nc Hi. pose proof (columns_keys _ _ _ _ _ H) as K. pose proof (columns_table _ _ _ _ _ H) as [ND _].
  assert (W : wants_spins names = requested "a_1" names) by (unfold wants_spins; apply req_out in Nc; rewrite Nc; apply orb_false_r).
  assert (Av : incl (available names) (keys (ij_params a))) by (rewrite K, W; unfold available; as_model; intros x; destruct (requested "a_1" names); cbn; tauto).
  assert (Np : ~ In "prior" names) by (intros X; apply Hi in X; unfold available in X; as_model; destruct (requested "a_1" names); cbn in X; intuition discriminate).
  destruct (load_plain w a names) as (a' & E & T1 & T2 & D & KK & V); auto; [rewrite K; cbn; tauto|intros x Hx; auto|].
  exists a'. split; auto. split; auto. split; auto. split; auto. split; auto. split.
  - intros k Hk. rewrite V by auto. eapply columns_value; eauto. intros ->. auto.
  - rewrite V by auto. apply H.
Qed.
Lemma Forall2_sel {A} (P : nat -> A -> Prop) sel : forall s l, Forall2 (fun i x => P (nth (i - s) sel O) x) (seq s (length sel)) l -> Forall2 P sel l.
Proof.
  induction sel as [|j r IH]; intros s l; cbn [length seq]; intros H; inversion H as [|? ? ? ? H1 H2]; subst; constructor.
  - rewrite Nat.sub_diag in H1. exact H1.
  - apply (IH (S s)). revert H2. apply Forall2_impl_in. intros i x Hi. apply in_seq in Hi. replace (i - s)%nat with (S (i - S s)) by lia. auto.
Qed.
Lemma map_sel {A} (f : nat -> A) (g : nat -> A) sel : (forall i, (i < length sel)%nat -> f i = g (nth i sel O)) -> map f (seq 0 (length sel)) = map g sel.
Proof.
  intros H. rewrite (map_nth_seq g sel O). apply map_ext_in. intros i Hi. apply in_seq in Hi. apply H. lia.
Qed.
Theorem columns_effective w t names prior sel a : injection_columns t names prior sel (ij_params a) -> In "chi_eff" names ->
  (forall j, In j sel -> exists p, converted_prior w (requested "chi_p" names) (injection_spins t prior j) p) ->
  exists a', load_injection_dataset w (Ok a) names = Ok a' /\ ij_total a' = ij_total a /\ ij_time a' = ij_time a /\ effective_columns w t names prior sel (ij_params a').
Proof.
  intros H Hc HP. pose proof (columns_keys _ _ _ _ _ H) as K.
  assert (W : wants_spins names = true) by (unfold wants_spins; apply req_in in Hc; rewrite Hc; apply orb_true_r). rewrite W in K.
  destruct (load_chieff w a names (length sel)) as (a' & ps & E & T1 & T2 & KK & V & X1 & X2 & X3 & X4); auto.
  { eapply columns_table; eauto. }
  { intros i Hi. rewrite (columns_spins _ _ _ _ _ _ H W Hi). apply HP, nth_In, Hi. }
  exists a'. split; auto. split; auto. split; auto. split; auto. split; [|split; [|split]].
  - intros k Hk. rewrite V by auto. eapply columns_value; eauto.
    + rewrite K. unfold second_mass in Hk; as_model. destruct (requested "mass_2" names); cbn in *; tauto.
    + unfold second_mass in Hk; as_model. destruct (requested "mass_2" names); cbn in Hk; intuition (subst; discriminate).
  - rewrite X1. f_equal. apply map_sel. intros i Hi. now rewrite (columns_spins _ _ _ _ _ _ H W Hi).
  - intros Q. rewrite X2 by auto. f_equal. apply map_sel. intros i Hi. now rewrite (columns_spins _ _ _ _ _ _ H W Hi).
  - exists ps. split; auto. apply (Forall2_sel _ sel 0). revert X4. apply Forall2_impl_in. intros i p Hi. apply in_seq in Hi. rewrite (columns_spins _ _ _ _ _ _ H W) by lia. now rewrite Nat.sub_0_r.
Qed.

(** ** C81 *)
Lemma square_pos k a : 0 < k -> 0 < a -> 0 < k * PI * (a * a).
Proof. intros Hk Ha. pose proof PI_RGT_0. apply Rmult_lt_0_compat; [apply Rmult_lt_0_compat; auto|now apply Rmult_lt_0_compat]. Qed.
Lemma sphere_pos a : 0 < a -> 0 < sphere a.
Proof. intros H. unfold sphere. replace (a ^ 2) with (a * a) by ring. apply square_pos; lra. Qed.
Lemma jac_sphere a1 a2 : polar_jacobian (Fin a1) (Fin a2) = Fin (sphere a1 * sphere a2 / 4).
Proof. unfold polar_jacobian, sphere. rewrite !nmul_fin. f_equal. field. Qed.
Lemma converted_value w s p' a1 a2 p x : converted_prior w false s p' -> sr_a1 s = Fin a1 -> sr_a2 s = Fin a2 -> sr_prior s = Fin p -> 0 < a1 -> 0 < a2 ->
  pchi w (row_chi s) (sr_q s) = Ok (Fin x) -> p' = Fin (4 * p / (sphere a1 * sphere a2) * x).
Proof.
  intros (px & E & ->) E1 E2 E3 H1 H2 Ex. change spin_chi_eff with row_chi in E. rewrite Ex in E. apply ok_inj in E. subst px. rewrite E1, E2, E3, jac_sphere.
  pose proof (sphere_pos a1 H1). pose proof (sphere_pos a2 H2). assert (0 < sphere a1 * sphere a2) by now apply Rmult_lt_0_compat.
  rewrite ndiv_fin, nmul_fin by lra. f_equal. field. lra.
Qed.
Lemma Forall2_nth_error {A B} (P : A -> B -> Prop) l l' : Forall2 P l l' -> forall i a, nth_error l i = Some a -> exists b, nth_error l' i = Some b /\ P a b.
Proof. induction 1; intros [|i] a E; cbn in *; try discriminate; [injection E as <-; eauto|eauto]. Qed.
(** the stored prior against the intended one, for a row drawn with isotropic spins of uniform magnitude *)
Lemma intended_iff v a1 a2 : 0 < a1 -> 0 < a2 -> v <> 0 -> (v * isotropic_density a1 a2 = v <-> sphere a1 * sphere a2 = 1).
Proof.
  intros H1 H2 Hv. pose proof (sphere_pos a1 H1). pose proof (sphere_pos a2 H2). unfold isotropic_density.
  assert (P : 0 < sphere a1 * sphere a2) by now apply Rmult_lt_0_compat.
  replace (1 / sphere a1 * (1 / sphere a2)) with (/ (sphere a1 * sphere a2)) by (field; lra). split.
  - intros E. assert (X : / (sphere a1 * sphere a2) = 1) by (apply (Rmult_eq_reg_l v); lra). rewrite <- (Rinv_inv (sphere a1 * sphere a2)), X. apply Rinv_1.
  - intros ->. rewrite Rinv_1. ring.
Qed.
Theorem effective_isotropic w t names prior sel d : effective_columns w t names (requested_prior t names prior) sel d -> In "chi_eff" names -> ~ In "chi_p" names ->
  exists priors, assoc "prior" d = Ok priors /\
  forall i j p a1 a2 m1 x, nth_error sel i = Some j -> injection_value t "a_1" j = Fin a1 -> injection_value t "a_2" j = Fin a2 -> 0 < a1 -> 0 < a2 ->
    injection_value t "mass_1" j = Fin m1 -> prior j = Fin (p * isotropic_density a1 a2) ->
    pchi w (row_chi (injection_spins t (requested_prior t names prior) j)) (injection_value t "mass_ratio" j) = Ok (Fin x) ->
    let intended := p * factor (requested "mass_ratio" names) m1 * x in
    nth_error priors i = Some (Fin (intended * isotropic_density a1 a2)) /\
    (intended <> 0 -> (intended * isotropic_density a1 a2 = intended <-> sphere a1 * sphere a2 = 1)).
Proof.
  intros (_ & _ & _ & _ & ps & E & F) Hc Np. exists ps. split; auto. intros i j p a1 a2 m1 x Hi E1 E2 H1 H2 Em Ep Ex intended.
  destruct (Forall2_nth_error _ _ _ F i j Hi) as (p' & Ei & Cp). as_model. apply req_out in Np. rewrite Np in Cp.
  pose proof (sphere_pos a1 H1). pose proof (sphere_pos a2 H2).
  split; [|apply intended_iff; auto]. rewrite Ei. f_equal.
  assert (Pj : requested_prior t names prior j = Fin (p * factor (requested "mass_ratio" names) m1 / 4)).
  { unfold requested_prior, times; as_model. assert (W : wants_spins names = true) by (unfold wants_spins; apply req_in in Hc; rewrite Hc; apply orb_true_r). rewrite W.
    change (mag t "1" j) with (injection_value t "a_1" j). change (mag t "2" j) with (injection_value t "a_2" j). change (cell t "mass1_source" j) with (injection_value t "mass_1" j).
    rewrite E1, E2, Em, Ep, jac_sphere, nmul_fin. unfold factor, isotropic_density. destruct (requested "mass_ratio" names); rewrite ?nmul_fin; f_equal; field; lra. }
  erewrite (converted_value w _ p' a1 a2 _ x Cp); eauto. f_equal. unfold intended, isotropic_density. field. lra.
Qed.
Theorem effective_posterior w (s : spin_row) p' p a1 a2 x : converted_prior w false s p' -> sr_a1 s = Fin a1 -> sr_a2 s = Fin a2 -> sr_prior s = Fin p -> 0 < a1 -> 0 < a2 ->
  pchi w (row_chi s) (sr_q s) = Ok (Fin x) -> p' = Fin (p * x / (sphere a1 * sphere a2 / 4)) /\ (p * x <> 0 -> (p' = Fin (p * x) <-> sphere a1 * sphere a2 = 4)).
Proof.
  intros Cp E1 E2 E3 H1 H2 Ex. pose proof (sphere_pos a1 H1). pose proof (sphere_pos a2 H2). assert (P : 0 < sphere a1 * sphere a2) by now apply Rmult_lt_0_compat.
  rewrite (converted_value w s p' a1 a2 p x) by auto.
  replace (4 * p / (sphere a1 * sphere a2) * x) with (p * x / (sphere a1 * sphere a2 / 4)) by (field; lra). split; auto. intros Hv. split.
  - intros E. injection E as E. set (b := sphere a1 * sphere a2) in *.
    assert (X : p * x * 4 = p * x * b). { transitivity (p * x / (b / 4) * b); [field; lra|rewrite E; ring]. } apply Rmult_eq_reg_l in X; auto.
  - intros ->. f_equal. field.
Qed.
(** ** Success of the processing step *)
Lemma fields_ok n post sel ps : is_table n post -> length sel = n -> incl (map source_name ps) (keys post) -> exists rws, fields post sel ps = Ok rws.
Proof.
  intros T L. induction ps as [|p r IH]; cbn [fields map]; intros I; [eauto|].
  rewrite (field_seq n post (source_name p) T) by (apply I; now left). cbn [rbind]. rewrite pick_ok by (rewrite map_length, seq_length; auto). cbn [rbind].
  destruct IH as [rws ->]; [intros k Hk; apply I; now right|]. cbn [rbind]. eauto.
Qed.
Theorem processed_succeeds choice c mmax cat : good_catalog cat -> Forall (fun ke : string * event_post => ~ is_gwtc1 (snd ke)) cat ->
  exists evs, processed_catalog_dataset_from_dict choice c mmax cat = Ok (evs, c).
Proof.
  intros G N. unfold processed_catalog_dataset_from_dict. assert (X : exists cut, cut_events c mmax cat = Ok (cut, c)).
  { induction cat as [|[ev e] r IH]; cbn [cut_events]; [eauto|]. inversion G as [|? ? [n Hn] G']. inversion N as [|? ? Ng N']. subst. cbn [snd] in *.
    destruct (String.eqb_spec (ep_catalog e) "GWTC-1") as [Q|Q]; [now destruct Ng|]. unfold other_rows.
    destruct Hn as (T & _ & I). specialize (I Ng). rewrite (field_seq n _ "mass_1_source" T) by (apply I; cbn; tauto). cbn [rbind].
    destruct (fields_ok n (ep_samples e) (mass_sel mmax (map (cell (ep_samples e) "mass_1_source") (seq 0 n))) PARAMS T) as [rws ->]; auto.
    { rewrite mass_sel_length, map_length. apply seq_length. }
    cbn [rbind]. destruct IH as [cut ->]; auto. cbn [rbind]. eauto. }
  destruct X as [cut ->]. cbn [rbind]. eauto.
Qed.
