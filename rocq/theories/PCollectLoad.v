(** Proofs about the loading functions of preprocess/data_collection.py. *)
From Coq Require Import Lia Lra.
From Verif Require Import PConstruct PUtils NumFacts ArrFacts PSelection.
From Verif Require Export PCollect.
Open Scope R_scope.
Open Scope string_scope.
Open Scope list_scope.

Lemma req_in p l : requested p l = true <-> In p l.
Proof. unfold requested. rewrite existsb_exists. split; [intros (x & H & E); apply String.eqb_eq in E; now subst|intros H; exists p; split; auto; apply String.eqb_refl]. Qed.
Lemma req_out p l : requested p l = false <-> ~ In p l.
Proof. rewrite <- req_in. destruct (requested p l); split; congruence. Qed.

(** ** drop_sel *)
Lemma keys_drop {A} ks (d : dict A) : keys (drop_keys ks d) = filter (fun k => negb (requested k ks)) (keys d).
Proof. unfold drop_keys, keys. induction d as [|[k v] r IH]; cbn [filter map fst]; auto. destruct (negb (requested k ks)); cbn [map fst]; now rewrite IH. Qed.
Lemma assoc_drop {A} ks (d : dict A) k : ~ In k ks -> assoc k (drop_keys ks d) = assoc k d.
Proof.
  intros H. unfold drop_keys. induction d as [|[k' v] r IH]; cbn [filter assoc fst]; auto. destruct (String.eqb_spec k k') as [->|N].
  - apply req_out in H. rewrite H. cbn [negb assoc]. now rewrite String.eqb_refl.
  - destruct (negb (requested k' ks)); auto. cbn [assoc]. rewrite <- String.eqb_neq in N. now rewrite N.
Qed.
Lemma drop_sel_ok {A} ks (d : dict A) : incl ks (keys d) -> drop_sel ks d = Ok (drop_keys ks d).
Proof.
  intros H. unfold drop_sel. replace (forallb (fun k => mem k d) ks) with true; auto. symmetry. apply forallb_forall. intros k Hk. apply mem_keys. auto.
Qed.
Lemma drop_sel_missing {A} ks (d : dict A) k : In k ks -> ~ In k (keys d) -> drop_sel ks d = Err KeyError.
Proof.
  intros H N. unfold drop_sel. destruct (forallb _ _) eqn:E; auto. rewrite forallb_forall in E. specialize (E k H). apply mem_keys in E. now destruct N.
Qed.
Lemma remove_first_ok k l : In k l -> exists l', remove_first k l = Ok l' /\ forall x, x <> k -> (In x l' <-> In x l).
Proof.
  induction l as [|y r IH]; intros H; [destruct H|]. cbn [remove_first]. destruct (String.eqb_spec k y) as [->|N].
  - exists r. split; auto. intros x Hx. split; [now right|]. intros [->|]; congruence.
  - destruct H as [->|H]; [congruence|]. destruct (IH H) as (l' & -> & Hl). cbn [rbind]. exists (y :: l'). split; auto. intros x Hx. cbn. rewrite (Hl x Hx). tauto.
Qed.
Lemma remove_first_incl k l l' : remove_first k l = Ok l' -> incl l' l.
Proof.
  revert l'. induction l as [|y r IH]; intros l'; cbn [remove_first]; [discriminate|]. destruct (String.eqb k y).
  - intros E. injection E as <-. intros x Hx. now right.
  - destruct (remove_first k r) as [r'|]; cbn [rbind]; [|discriminate]. intros E. injection E as <-. intros x [<-|Hx]; [now left|right; eapply IH; eauto].
Qed.
Lemma remove_first_nodup k l l' : NoDup l -> remove_first k l = Ok l' -> ~ In k l'.
Proof.
  intros ND. revert l'. induction ND as [|y r Hy ND IH]; intros l'; cbn [remove_first]; [discriminate|]. destruct (String.eqb_spec k y) as [->|N].
  - intros E. injection E as <-. auto.
  - destruct (remove_first k r) as [r'|]; cbn [rbind]; [|discriminate]. intros E. injection E as <-. intros [->|H]; [congruence|]. eapply IH; eauto.
Qed.
Lemma remove_first_err k l : ~ In k l -> remove_first k l = Err ValueError.
Proof. induction l as [|y r IH]; intros H; cbn [remove_first]; auto. destruct (String.eqb_spec k y) as [->|N]; [destruct H; now left|]. rewrite IH; auto. intros X. apply H. now right. Qed.
Lemma setxor_in have want x : In x (setxor1d have want) <-> (In x have /\ ~ In x want) \/ (In x want /\ ~ In x have).
Proof.
  unfold setxor1d. rewrite in_app_iff, !filter_In, !negb_true_iff, !req_out. tauto.
Qed.

(** what is removed when no effective spin is requested *)
Lemma removal have names : NoDup have -> In "prior" have -> ~ In "prior" names -> incl names have ->
  exists rm, remove_first "prior" (setxor1d have names) = Ok rm /\ incl rm have /\ forall x, In x have -> (In x rm <-> ~ In x names /\ x <> "prior").
Proof.
  intros ND Hp Np Hi. destruct (remove_first_ok "prior" (setxor1d have names)) as (rm & E & H); [apply setxor_in; auto|].
  exists rm. split; auto.
  assert (X : setxor1d have names = filter (fun k => negb (requested k names)) have).
  { unfold setxor1d. replace (filter (fun k => negb (requested k have)) names) with (@nil string); [apply app_nil_r|]. symmetry.
    clear - Hi. induction names as [|x r IH]; auto. cbn [filter]. assert (R : requested x have = true) by (apply req_in, Hi; now left). rewrite R. cbn [negb]. apply IH. intros y Hy. apply Hi. now right. }
  assert (NP : ~ In "prior" rm) by (eapply remove_first_nodup; [|exact E]; rewrite X; now apply NoDup_filter). split.
  - intros x Hx. apply (remove_first_incl _ _ _ E), setxor_in in Hx as [[A _]|[A _]]; auto.
  - intros x Hx. destruct (string_dec x "prior") as [->|N]; [tauto|]. rewrite (H x N), setxor_in. tauto.
Qed.
Lemma removal_missing have names k : NoDup have -> In "prior" have -> ~ In "prior" names -> In k names -> ~ In k have ->
  exists rm, remove_first "prior" (setxor1d have names) = Ok rm /\ In k rm.
Proof.
  intros ND Hp Np Hk Nk. destruct (remove_first_ok "prior" (setxor1d have names)) as (rm & E & H); [apply setxor_in; auto|].
  exists rm. split; auto. apply H; [intros ->; auto|]. apply setxor_in. auto.
Qed.
Theorem load_plain w (a : inj_array) names : NoDup (keys (ij_params a)) -> In "prior" (keys (ij_params a)) -> ~ In "prior" names -> ~ In "chi_eff" names ->
  incl names (keys (ij_params a)) ->
  exists a', load_injection_dataset w (Ok a) names = Ok a' /\ ij_total a' = ij_total a /\ ij_time a' = ij_time a /\
    NoDup (keys (ij_params a')) /\ (forall k, In k (keys (ij_params a')) <-> In k names \/ k = "prior") /\
    forall k, In k names \/ k = "prior" -> assoc k (ij_params a') = assoc k (ij_params a).
Proof.
  intros ND Hp Np Nc Hi. destruct (removal _ _ ND Hp Np Hi) as (rm & E & I & H). unfold load_injection_dataset. cbn [rbind].
  apply req_out in Nc. rewrite Nc, E. cbn [rbind]. rewrite drop_sel_ok by auto. cbn [rbind]. eexists. split; [reflexivity|]. cbn [ij_total ij_time ij_params].
  split; auto. split; auto. rewrite keys_drop. split; [now apply NoDup_filter|]. split.
  - intros k. rewrite filter_In, negb_true_iff, req_out. split.
    + intros [A B]. destruct (string_dec k "prior"); auto. left. destruct (in_dec string_dec k names); auto. destruct B. apply H; auto.
    + intros A. assert (K : In k (keys (ij_params a))) by (destruct A as [A| ->]; auto). split; auto. rewrite H by auto. destruct A as [A| ->]; tauto.
  - intros k A. apply assoc_drop. assert (K : In k (keys (ij_params a))) by (destruct A as [A| ->]; auto). rewrite H by auto. destruct A as [A| ->]; tauto.
Qed.
Theorem load_missing w (a : inj_array) names k : NoDup (keys (ij_params a)) -> In "prior" (keys (ij_params a)) -> ~ In "prior" names -> ~ In "chi_eff" names ->
  In k names -> ~ In k (keys (ij_params a)) -> load_injection_dataset w (Ok a) names = Err KeyError.
Proof.
  intros ND Hp Np Nc Hk Nk. destruct (removal_missing _ _ k ND Hp Np Hk Nk) as (rm & E & I). unfold load_injection_dataset. cbn [rbind].
  apply req_out in Nc. rewrite Nc, E. cbn [rbind]. rewrite (drop_sel_missing _ _ k) by auto. reflexivity.
Qed.
Theorem load_prior_requested w (a : inj_array) names : In "prior" (keys (ij_params a)) -> In "prior" names -> ~ In "chi_eff" names ->
  load_injection_dataset w (Ok a) names = Err ValueError.
Proof.
  intros Hp Np Nc. unfold load_injection_dataset. cbn [rbind]. apply req_out in Nc. rewrite Nc, remove_first_err; auto. rewrite setxor_in. tauto.
Qed.

(** ** Effective spins *)
Lemma new_prior_spec w b s p' : new_prior w b s = Ok p' <-> converted_prior w b s p'.
Proof.
  unfold new_prior, converted_prior. change spin_chi_eff with row_chi. change spin_chi_p with row_chip. rewrite jac_spec. split.
  - destruct (if b then _ else _) as [p|]; cbn [rbind]; [|discriminate]. intros E. injection E as <-. exists p. auto.
  - intros (p & -> & ->). reflexivity.
Qed.
Lemma traverse_ok {A B} (f : A -> result B) l : (forall x, In x l -> exists y, f x = Ok y) -> exists ys, traverse f l = Ok ys /\ Forall2 (fun x y => f x = Ok y) l ys.
Proof.
  induction l as [|x r IH]; intros H; cbn [traverse]; [exists []; auto|]. destruct (H x ltac:(now left)) as [y Ey]. rewrite Ey. cbn [rbind].
  destruct IH as (ys & E & F); [intros; apply H; now right|]. rewrite E. cbn [rbind]. exists (y :: ys). auto.
Qed.
Lemma get_spins_ok n t : is_table n t -> incl ["mass_ratio"; "a_1"; "a_2"; "cos_tilt_1"; "cos_tilt_2"; "prior"] (keys t) ->
  get_spins t = Ok (map (spins_at t) (seq 0 n)).
Proof.
  intros Ht Hi. unfold get_spins.
  do 6 (rewrite (table_seq n) by (auto; apply Hi; cbn; tauto); cbn [rbind]). f_equal. unfold spin_rows. rewrite map_length, seq_length.
  apply map_ext_in. intros j Hj. apply in_seq in Hj. unfold spins_at.
  assert (N : forall f, nth j (map f (seq 0 n)) NaN = (f j : num)).
  { intros f. rewrite (nth_indep _ NaN (f O)) by (rewrite map_length, seq_length; lia). rewrite map_nth, seq_nth by lia. reflexivity. }
  now rewrite !N.
Qed.
Definition SPIN_KEYS : list string := ["mass_1"; "mass_2"; "mass_ratio"; "redshift"; "prior"; "a_1"; "cos_tilt_1"; "a_2"; "cos_tilt_2"].
Lemma assoc_app_l {A} k (a b : dict A) : In k (keys a) -> assoc k (a ++ b) = assoc k a.
Proof. intros H. rewrite assoc_app. apply assoc_keys in H as [v ->]. reflexivity. Qed.
Lemma assoc_app_r {A} k (a b : dict A) : ~ In k (keys a) -> assoc k (a ++ b) = assoc k b.
Proof. intros H. rewrite assoc_app. destruct (assoc k a) eqn:E; auto. destruct H. apply assoc_keys. eauto. Qed.
Theorem load_chieff w (a : inj_array) names n : is_table n (ij_params a) -> keys (ij_params a) = SPIN_KEYS -> In "chi_eff" names ->
  (forall j, (j < n)%nat -> exists p, converted_prior w (requested "chi_p" names) (spins_at (ij_params a) j) p) ->
  exists a' priors, load_injection_dataset w (Ok a) names = Ok a' /\ ij_total a' = ij_total a /\ ij_time a' = ij_time a /\
    keys (ij_params a') = ["mass_1"; second_mass names; "redshift"; "chi_eff"; "prior"] ++ (if requested "chi_p" names then "chi_p" :: nil else []) /\
    (forall k, In k ["mass_1"; second_mass names; "redshift"] -> assoc k (ij_params a') = assoc k (ij_params a)) /\
    assoc "chi_eff" (ij_params a') = Ok (map (fun j => row_chi (spins_at (ij_params a) j)) (seq 0 n)) /\
    (In "chi_p" names -> assoc "chi_p" (ij_params a') = Ok (map (fun j => row_chip (spins_at (ij_params a) j)) (seq 0 n))) /\
    assoc "prior" (ij_params a') = Ok priors /\
    Forall2 (fun j p => converted_prior w (requested "chi_p" names) (spins_at (ij_params a) j) p) (seq 0 n) priors.
Proof.
  intros Ht HK Hc Hp. set (t := ij_params a) in *. set (b := requested "chi_p" names) in *.
  destruct (traverse_ok (new_prior w b) (map (spins_at t) (seq 0 n))) as (ps & ET & F).
  { intros s Hs. apply in_map_iff in Hs as (j & <- & Hj). apply in_seq in Hj. destruct (Hp j ltac:(lia)) as [p P]. exists p. now apply new_prior_spec. }
  assert (F' : Forall2 (fun j p => converted_prior w b (spins_at t j) p) (seq 0 n) ps).
  { clear - F. revert ps F. induction (seq 0 n) as [|j r IH]; intros ps F; cbn [map] in F; inversion F; subst; constructor; auto. now apply new_prior_spec. }
  assert (EC : convert_injections w t names = Ok (drop_keys ("prior" :: nil) t ++ [("chi_eff", map row_chi (map (spins_at t) (seq 0 n))); ("prior", ps)] ++
     (if b then ("chi_p", map row_chip (map (spins_at t) (seq 0 n))) :: nil else []))).
  { unfold convert_injections. rewrite (get_spins_ok n) by (auto; rewrite HK; unfold SPIN_KEYS; intros x; cbn; tauto). cbn [rbind]. fold b. rewrite ET. cbn [rbind].
    rewrite drop_sel_ok by (rewrite HK; intros x [<-|[]]; cbn; tauto). reflexivity. }
  set (d := drop_keys _ _ ++ _) in EC.
  assert (KD : keys d = ["mass_1"; "mass_2"; "mass_ratio"; "redshift"; "a_1"; "cos_tilt_1"; "a_2"; "cos_tilt_2"; "chi_eff"; "prior"] ++ (if b then "chi_p" :: nil else [])).
  { unfold d, keys. rewrite map_app. fold (keys (drop_keys ("prior" :: nil) t)). rewrite keys_drop, HK. destruct b; reflexivity. }
  unfold load_injection_dataset. cbn [rbind]. assert (Hc' := Hc). apply req_in in Hc'. rewrite Hc'. fold t. rewrite EC. cbn [rbind].
  rewrite drop_sel_ok; [|rewrite KD; unfold spin_remove; intros x Hx; destruct (requested "mass_2" names), b; cbn in *; tauto]. cbn [rbind].
  eexists. exists ps. split; [reflexivity|]. cbn [ij_total ij_time ij_params]. split; auto. split; auto.
  assert (AD : forall k, ~ In k (spin_remove names) -> assoc k (drop_keys (spin_remove names) d) = assoc k d) by (intros; now apply assoc_drop).
  assert (NP : keys (drop_keys ("prior" :: nil) t) = ["mass_1"; "mass_2"; "mass_ratio"; "redshift"; "a_1"; "cos_tilt_1"; "a_2"; "cos_tilt_2"]) by (rewrite keys_drop, HK; reflexivity).
  assert (SR : forall k, In k (spin_remove names) -> In k ["a_1"; "a_2"; "cos_tilt_1"; "cos_tilt_2"; "mass_ratio"; "mass_2"]) by (intros k; unfold spin_remove; destruct (requested "mass_2" names); cbn; tauto).
  split; [|split; [|split; [|split; [|split]]]]; auto.
  - rewrite keys_drop, KD. unfold spin_remove, second_mass; as_model. destruct (requested "mass_2" names), b; reflexivity.
  - intros k Hk. assert (N : ~ In k (spin_remove names)).
    { unfold spin_remove, second_mass in *; as_model. destruct (requested "mass_2" names); cbn in *; intuition (subst; discriminate). }
    rewrite AD by auto. unfold d. rewrite assoc_app_l.
    + apply assoc_drop. unfold second_mass in Hk; as_model. destruct (requested "mass_2" names); cbn in *; intuition (subst; discriminate).
    + rewrite NP. unfold second_mass in Hk; as_model. destruct (requested "mass_2" names); cbn in *; intuition.
  - rewrite AD by (intros X; apply SR in X; cbn in X; intuition discriminate). unfold d. rewrite assoc_app_r by (rewrite NP; cbn; intuition discriminate). cbn [assoc app]. rewrite String.eqb_refl, map_map. reflexivity.
  - intros Hcp. rewrite AD by (intros X; apply SR in X; cbn in X; intuition discriminate). unfold d. rewrite assoc_app_r by (rewrite NP; cbn; intuition discriminate).
    unfold b. apply req_in in Hcp. rewrite Hcp. cbn. rewrite map_map. reflexivity.
  - rewrite AD by (intros X; apply SR in X; cbn in X; intuition discriminate). unfold d. rewrite assoc_app_r by (rewrite NP; cbn; intuition discriminate). reflexivity.
Qed.
