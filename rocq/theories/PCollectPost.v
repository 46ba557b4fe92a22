(** Proofs about loading posteriors, and about the effective-spin prior (preprocess/data_collection.py). *)
From Coq Require Import Lia Lra.
From Verif Require Import PConstruct PUtils NumFacts ArrFacts PSelection.
From Verif Require Export PCollectLoad.
Open Scope R_scope.
Open Scope string_scope.
Open Scope list_scope.

(** ** Shapes *)
Lemma fields_length post sel ps rws : fields post sel ps = Ok rws -> length rws = length ps.
Proof.
  revert rws. induction ps as [|p r IH]; intros rws; cbn [fields]; [intros E; injection E as <-; auto|].
  destruct (field post (source_name p)) as [col|]; cbn [rbind]; [|discriminate]. destruct (pick sel col) as [col'|]; cbn [rbind]; [|discriminate].
  destruct (fields post sel r) eqn:E; cbn [rbind]; [|discriminate]. intros X. injection X as <-. cbn. f_equal. now apply IH.
Qed.
Lemma cut_eight mmax cat : forall c evs c', cut_events c mmax cat = Ok (evs, c') -> Forall (fun ed => length (ed_rows (snd ed)) = 8%nat) evs.
Proof.
  induction cat as [|[ev e] r IH]; intros c evs c'; cbn [cut_events]; [intros E; injection E as <- <-; constructor|].
  destruct (if String.eqb (ep_catalog e) "GWTC-1" then _ else _) as [[rws c1]|] eqn:E1; cbn [rbind]; [|discriminate].
  destruct (cut_events c1 mmax r) as [[rest c2]|] eqn:E2; cbn [rbind]; [|discriminate]. intros E. injection E as <- <-. constructor; [|eapply IH; eauto]. cbn [snd ed_rows].
  destruct (String.eqb (ep_catalog e) "GWTC-1").
  - unfold gwtc1_rows in E1. destruct (field _ _); cbn [rbind] in E1; [|discriminate]. destruct (DL2z _ _ _) as [[z c3]|]; cbn [rbind] in E1; [|discriminate].
    do 6 (destruct (field _ _); cbn [rbind] in E1; [|discriminate]). injection E1 as <- <-. reflexivity.
  - unfold other_rows in E1. destruct (field _ _); cbn [rbind] in E1; [|discriminate]. destruct (fields _ _ _) eqn:EF; cbn [rbind] in E1; [|discriminate].
    injection E1 as <- <-. now rewrite (fields_length _ _ _ _ EF).
Qed.
Lemma processed_eight choice c mmax cat evs c' : processed_catalog_dataset_from_dict choice c mmax cat = Ok (evs, c') -> Forall (fun ed => length (ed_rows (snd ed)) = 8%nat) evs.
Proof.
  unfold processed_catalog_dataset_from_dict. destruct (cut_events c mmax cat) as [[cut c1]|] eqn:E; cbn [rbind]; [|discriminate]. intros X. injection X as <- <-.
  apply cut_eight in E. apply Forall_forall. intros ed Hed. apply in_map_iff in Hed as ([ev d] & <- & Hd). rewrite Forall_forall in E. specialize (E _ Hd). cbn [snd] in *. cbn. now rewrite map_length.
Qed.
Lemma event_rows_nine names tables evs rws : Forall (fun ed : string * event_data => length (ed_rows (snd ed)) = 8%nat) evs -> event_rows names tables evs = Ok rws ->
  Forall (fun r => length r = 9%nat) rws /\ length rws = length evs.
Proof.
  intros F. revert rws. induction F as [|[ev d] r E F IH]; intros rws; cbn [event_rows]; [intros X; injection X as <-; auto|].
  destruct (event_prior names tables d); cbn [rbind]; [|discriminate]. destruct (event_rows names tables r) as [rest|]; cbn [rbind]; [|discriminate].
  intros X. injection X as <-. destruct (IH rest eq_refl) as [A B]. split; [|cbn; lia]. constructor; auto. rewrite app_length. cbn [snd] in E. rewrite E. reflexivity.
Qed.
Lemma append_nine c evs names full c' : Forall (fun ed : string * event_data => length (ed_rows (snd ed)) = 8%nat) evs ->
  append_prior_to_processed_catalog c evs names = Ok (full, c') ->
  pe_events full = keys evs /\ pe_params full = PARAMS ++ "prior" :: nil /\ Forall (fun r => length r = 9%nat) (pe_values full) /\ length (pe_values full) = length evs.
Proof.
  intros F. unfold append_prior_to_processed_catalog. destruct evs as [|e0 r0]; [discriminate|]. destruct (if requested "redshift" names then _ else _) as [[t c1]|]; cbn [rbind]; [|discriminate].
  destruct (event_rows names t (e0 :: r0)) as [rws|] eqn:E; cbn [rbind]; [|discriminate]. intros X. injection X as <- <-. destruct (event_rows_nine _ _ _ _ F E). cbn. auto.
Qed.
Definition pe_shape (a : pe_array) : Prop := Forall (fun r => length r = length (pe_params a)) (pe_values a).
Lemma PARAMS_nodup : NoDup (PARAMS ++ "prior" :: nil).
Proof. cbn. repeat constructor; cbn; intuition discriminate. Qed.

(** ** drop_sel *)
Lemma combine_fst_snd {A B} (l : list (A * B)) : combine (map fst l) (map snd l) = l.
Proof. induction l as [|[a b] r IH]; cbn; congruence. Qed.
Lemma filter_combine_fst (f : string -> bool) ps : forall rws : list (list num), length rws = length ps ->
  filter f ps = map fst (filter (fun kr => f (fst kr)) (combine ps rws)).
Proof. induction ps as [|p r IH]; intros [|x xs] H; cbn in *; auto; try discriminate. destruct (f p); cbn; rewrite <- IH; auto. Qed.
Lemma keep_event ks a i : pe_shape a -> (i < length (pe_values a))%nat -> pe_event (keep_params ks a) i = drop_keys ks (pe_event a i).
Proof.
  intros S Hi. unfold pe_event, keep_params, drop_keys. cbn [pe_params pe_values].
  set (g := fun rows : list (list num) => map snd (filter (fun kr : string * list num => negb (requested (fst kr) ks)) (combine (pe_params a) rows))).
  rewrite (nth_indep _ [] (g [])) by (rewrite map_length; auto). rewrite (map_nth g). unfold g.
  rewrite (filter_combine_fst (fun k => negb (requested k ks)) (pe_params a) (nth i (pe_values a) [])); [apply combine_fst_snd|].
  unfold pe_shape in S. rewrite Forall_forall in S. apply S, nth_In, Hi.
Qed.
Lemma drop_params_ok ks a : incl ks (pe_params a) -> drop_params ks a = Ok (keep_params ks a).
Proof. intros H. unfold drop_params. replace (forallb _ ks) with true; auto. symmetry. apply forallb_forall. intros k Hk. apply req_in. auto. Qed.
Lemma drop_params_missing ks a k : In k ks -> ~ In k (pe_params a) -> drop_params ks a = Err KeyError.
Proof. intros H N. unfold drop_params. destruct (forallb _ ks) eqn:E; auto. rewrite forallb_forall in E. specialize (E k H). apply req_in in E. now destruct N. Qed.
Lemma keys_pe_event a i : pe_shape a -> (i < length (pe_values a))%nat -> keys (pe_event a i) = pe_params a.
Proof.
  intros S Hi. unfold pe_event, keys. unfold pe_shape in S. rewrite Forall_forall in S. specialize (S _ (nth_In _ [] Hi)).
  revert S. generalize (nth i (pe_values a) []). generalize (pe_params a). induction l as [|p r IH]; intros [|x xs] H; cbn in *; try discriminate; auto. f_equal. auto.
Qed.
Lemma keep_shape ks a : pe_shape a -> pe_shape (keep_params ks a).
Proof.
  intros S. unfold pe_shape in *. apply Forall_forall. intros r Hr. cbn [keep_params pe_values pe_params] in *. apply in_map_iff in Hr as (rws & <- & Hx).
  rewrite map_length. rewrite Forall_forall in S. rewrite (filter_combine_fst _ _ rws (S _ Hx)), map_length. reflexivity.
Qed.
Theorem select_plain w full names : pe_params full = PARAMS ++ "prior" :: nil -> pe_shape full -> ~ In "chi_eff" names -> incl names PARAMS ->
  exists a, select_posteriors w full names = Ok a /\ pe_shape a /\ pe_events a = pe_events full /\ length (pe_values a) = length (pe_values full) /\ NoDup (pe_params a) /\
    (forall k, In k (pe_params a) <-> In k names \/ k = "prior") /\
    forall i k, (i < length (pe_values full))%nat -> In k names \/ k = "prior" -> assoc k (pe_event a i) = assoc k (pe_event full i).
Proof.
  intros HP S Nc Hi. assert (Np : ~ In "prior" names) by (intros X; apply Hi in X; cbn in X; intuition discriminate).
  assert (Hi' : incl names (pe_params full)) by (rewrite HP; intros x Hx; apply in_or_app; left; auto).
  assert (Hpr : In "prior" (pe_params full)) by (rewrite HP; apply in_or_app; right; now left).
  destruct (removal (pe_params full) names) as (rm & E & I & H); auto; [rewrite HP; apply PARAMS_nodup|].
  unfold select_posteriors. apply req_out in Nc. rewrite Nc, E. cbn [rbind]. rewrite drop_params_ok by auto. eexists. split; [reflexivity|]. split; [now apply keep_shape|]. split; auto.
  split; [apply map_length|]. cbn [keep_params pe_params]. split; [apply NoDup_filter; rewrite HP; apply PARAMS_nodup|].
  assert (K0 : forall k, In k names \/ k = "prior" -> In k (pe_params full)) by (intros k [A| ->]; auto). split.
  - intros k. rewrite filter_In, negb_true_iff, req_out. split.
    + intros [A B]. destruct (string_dec k "prior"); auto. left. destruct (in_dec string_dec k names); auto. destruct B. apply H; auto.
    + intros A. split; auto. rewrite H by auto. destruct A as [A| ->]; tauto.
  - intros i k Hl A. rewrite keep_event by auto. apply assoc_drop. rewrite H by auto. destruct A as [A| ->]; tauto.
Qed.
Theorem select_chieff w full names n : pe_params full = PARAMS ++ "prior" :: nil -> pe_shape full -> In "chi_eff" names -> ~ In "chi_p" names ->
  (forall i, (i < length (pe_values full))%nat -> is_table n (pe_event full i) /\ forall j, (j < n)%nat -> exists p, converted_prior w false (spins_at (pe_event full i) j) p) ->
  exists a, select_posteriors w full names = Ok a /\ pe_events a = pe_events full /\ length (pe_values a) = length (pe_values full) /\
    pe_params a = ["mass_1"; second_mass names; "redshift"; "chi_eff"; "prior"] /\
    forall i, (i < length (pe_values full))%nat ->
      (forall k, In k ["mass_1"; second_mass names; "redshift"] -> assoc k (pe_event a i) = assoc k (pe_event full i)) /\
      assoc "chi_eff" (pe_event a i) = Ok (map (fun j => row_chi (spins_at (pe_event full i) j)) (seq 0 n)) /\
      exists priors, assoc "prior" (pe_event a i) = Ok priors /\ Forall2 (fun j p => converted_prior w false (spins_at (pe_event full i) j) p) (seq 0 n) priors.
Proof.
  intros HP S Hc Np HT. unfold select_posteriors. assert (Hc' := Hc). apply req_in in Hc'. rewrite Hc'. clear Hc'. assert (Np' := Np). apply req_out in Np'.
  unfold convert_posteriors. rewrite Np'.
  assert (EV : exists evs, traverse (convert_event w false (pe_params full)) (pe_values full) = Ok evs /\ Forall2 (fun r d => convert_event w false (pe_params full) r = Ok d) (pe_values full) evs).
  { apply traverse_ok. intros r Hr. apply In_nth with (d := []) in Hr as (i & Hi & <-). destruct (HT i Hi) as [Ht Hp]. unfold convert_event. fold (pe_event full i).
    rewrite (get_spins_ok n) by (auto; rewrite keys_pe_event, HP by auto; intros x; cbn; tauto). cbn [rbind].
    destruct (traverse_ok (new_prior w false) (map (spins_at (pe_event full i)) (seq 0 n))) as (ps & ET & F).
    { intros s Hs. apply in_map_iff in Hs as (j & <- & Hj). apply in_seq in Hj. destruct (Hp j ltac:(lia)) as [p P]. exists p. now apply new_prior_spec. }
    rewrite ET. cbn [rbind]. rewrite drop_sel_ok by (rewrite keys_pe_event, HP by auto; intros x [<-|[]]; cbn; tauto). cbn [rbind]. eauto. }
  destruct EV as (evs & EV & FV). rewrite EV. cbn [rbind]. set (full' := PE _ _ _).
  assert (PP : pe_params full' = ["mass_1"; "mass_2"; "mass_ratio"; "redshift"; "a_1"; "a_2"; "cos_tilt_1"; "cos_tilt_2"; "chi_eff"; "prior"]) by (unfold full'; cbn [pe_params]; rewrite HP; reflexivity).
  assert (LV : length evs = length (pe_values full)) by (clear - FV; induction FV; cbn; auto).
  assert (EI : forall i, (i < length (pe_values full))%nat -> exists ps, Forall2 (fun j p => converted_prior w false (spins_at (pe_event full i) j) p) (seq 0 n) ps /\
     nth i evs [] = drop_keys ("prior" :: nil) (pe_event full i) ++ [("chi_eff", map row_chi (map (spins_at (pe_event full i)) (seq 0 n))); ("prior", ps)]).
  { intros i Hi. destruct (HT i Hi) as [Ht Hp].
    assert (X : convert_event w false (pe_params full) (nth i (pe_values full) []) = Ok (nth i evs [])).
    { clear - FV Hi. revert i Hi. induction FV as [|r d rs ds E F IH]; intros [|i] Hi; cbn in *; try lia; auto. apply IH. lia. }
    unfold convert_event in X. fold (pe_event full i) in X.
    rewrite (get_spins_ok n) in X by (auto; rewrite keys_pe_event, HP by auto; intros x; cbn; tauto). cbn [rbind] in X.
    destruct (traverse (new_prior w false) (map (spins_at (pe_event full i)) (seq 0 n))) as [ps|] eqn:ET; cbn [rbind] in X; [|discriminate].
    rewrite drop_sel_ok in X by (rewrite keys_pe_event, HP by auto; intros x [<-|[]]; cbn; tauto). cbn [rbind] in X. apply ok_inj in X. exists ps. split; [|now rewrite <- X].
    clear - ET. revert ps ET. induction (seq 0 n) as [|j r IH]; intros ps; cbn [map traverse]; [intros E; injection E as <-; constructor|].
    destruct (new_prior w false (spins_at (pe_event full i) j)) as [p|] eqn:E1; cbn [rbind]; [|discriminate].
    destruct (traverse _ _) as [ps'|]; cbn [rbind]; [|discriminate]. intros E. injection E as <-. constructor; [now apply new_prior_spec|auto]. }
  assert (NP : forall i, (i < length (pe_values full))%nat -> keys (drop_keys ("prior" :: nil) (pe_event full i)) = PARAMS).
  { intros i Hi. rewrite keys_drop, keys_pe_event, HP by auto. reflexivity. }
  assert (KE : forall i, (i < length (pe_values full))%nat -> keys (nth i evs []) = pe_params full').
  { intros i Hi. destruct (EI i Hi) as (ps & _ & ->). unfold keys. rewrite map_app. fold (keys (drop_keys ("prior" :: nil) (pe_event full i))). rewrite NP, PP by auto. reflexivity. }
  assert (S' : pe_shape full').
  { apply Forall_forall. intros r Hr. unfold full' in Hr. cbn [pe_values] in Hr. apply in_map_iff in Hr as (d & <- & Hd). apply In_nth with (d := []) in Hd as (i & Hi & <-).
    rewrite <- (KE i) by (rewrite <- LV; exact Hi). unfold keys. now rewrite !map_length. }
  assert (PEI : forall i, (i < length (pe_values full))%nat -> pe_event full' i = nth i evs []).
  { intros i Hi. unfold pe_event. rewrite <- (KE i Hi). unfold full'. cbn [pe_values].
    rewrite (nth_indep _ [] (map snd (@nil (string * list num)))) by (rewrite map_length; rewrite <- LV in Hi; exact Hi). rewrite (map_nth (fun d => map snd d)). apply combine_fst_snd. }
  assert (SR : forall k, In k (spin_remove names) -> In k ["a_1"; "a_2"; "cos_tilt_1"; "cos_tilt_2"; "mass_ratio"; "mass_2"]) by (intros k; unfold spin_remove; destruct (requested "mass_2" names); cbn; tauto).
  rewrite drop_params_ok by (intros k Hk; apply SR in Hk; rewrite PP; cbn in *; tauto).
  assert (LF : length (pe_values full') = length (pe_values full)) by (unfold full'; cbn [pe_values]; rewrite map_length; auto).
  eexists. split; [reflexivity|]. split; auto. split; [unfold keep_params; cbn [pe_values]; rewrite !map_length; auto|]. split.
  - unfold keep_params. cbn [pe_params]. rewrite PP. unfold spin_remove, second_mass; as_model. destruct (requested "mass_2" names); reflexivity.
  - intros i Hi. rewrite keep_event by (auto; lia). rewrite PEI by auto. destruct (EI i Hi) as (ps & F & ->). split; [|split].
    + intros k Hk. rewrite assoc_drop by (unfold spin_remove, second_mass in *; as_model; destruct (requested "mass_2" names); cbn in *; intuition (subst; discriminate)).
      rewrite assoc_app_l by (rewrite NP by auto; unfold second_mass in Hk; as_model; destruct (requested "mass_2" names); cbn in *; tauto).
      apply assoc_drop. unfold second_mass in Hk; as_model; destruct (requested "mass_2" names); cbn in *; intuition (subst; discriminate).
    + rewrite assoc_drop by (intros X; apply SR in X; cbn in X; intuition discriminate). rewrite assoc_app_r by (rewrite NP by auto; cbn; intuition discriminate). cbn [assoc]. rewrite String.eqb_refl, map_map. reflexivity.
    + exists ps. split; auto. rewrite assoc_drop by (intros X; apply SR in X; cbn in X; intuition discriminate). rewrite assoc_app_r by (rewrite NP by auto; cbn; intuition discriminate). reflexivity.
Qed.

(** C82 *)
Lemma select_chip w full names : pe_params full = PARAMS ++ "prior" :: nil -> In "chi_p" names -> exists e, select_posteriors w full names = Err e.
Proof.
  intros HP Hc. unfold select_posteriors. assert (Hc' := Hc). apply req_in in Hc'. destruct (requested "chi_eff" names).
  - unfold convert_posteriors. rewrite Hc'. destruct (traverse _ _); cbn [rbind]; eauto.
  - destruct (remove_first "prior" _) as [rm|e] eqn:E; cbn [rbind]; [|eauto].
    destruct (in_dec string_dec "chi_p" rm) as [I|N].
    + rewrite (drop_params_missing _ _ "chi_p" I); [eauto|]. rewrite HP. cbn. intuition discriminate.
    + exfalso. assert (X : In "prior" (setxor1d (pe_params full) names)).
      { destruct (in_dec string_dec "prior" (setxor1d (pe_params full) names)); auto. rewrite remove_first_err in E by auto. discriminate. }
      destruct (remove_first_ok _ _ X) as (l & E' & H). rewrite E in E'. apply ok_inj in E'. subst l. apply N, H; [discriminate|]. apply setxor_in. right. split; auto. rewrite HP. cbn. intuition discriminate.
Qed.
Theorem chip_never h5 read choice w c mmax meta kf names : In "chi_p" names -> exists e, load_posterior_dataset h5 read choice w c mmax meta kf names = Err e.
Proof.
  intros Hc. unfold load_posterior_dataset. destruct (match meta with Some m => _ | None => _ end) as [m|e]; cbn [rbind]; [|eauto].
  destruct (unprocessed_catalog_dict_from_metadata h5 m) as [posts|e]; cbn [rbind]; [|eauto].
  destruct (processed_catalog_dataset_from_dict choice c mmax posts) as [[evs c1]|e] eqn:E1; cbn [rbind]; [|eauto].
  destruct (append_prior_to_processed_catalog c1 evs names) as [[full c2]|e] eqn:E2; cbn [rbind]; [|eauto].
  destruct (append_nine _ _ _ _ _ (processed_eight _ _ _ _ _ _ E1) E2) as (_ & HP & _).
  destruct (select_chip w full names HP Hc) as [e ->]. cbn [rbind]. eauto.
Qed.
(** C77, the whole chain *)
Theorem load_posterior_plain h5 read choice w c mmax meta kf names posts evs c1 full c2 :
  unprocessed_catalog_dict_from_metadata h5 meta = Ok posts ->
  processed_catalog_dataset_from_dict choice c mmax posts = Ok (evs, c1) ->
  append_prior_to_processed_catalog c1 evs names = Ok (full, c2) ->
  ~ In "chi_eff" names -> incl names PARAMS ->
  exists a, load_posterior_dataset h5 read choice w c mmax (Some meta) kf names = Ok (a, c2) /\ pe_events a = keys evs /\ length (pe_values a) = length evs /\ NoDup (pe_params a) /\
    (forall k, In k (pe_params a) <-> In k names \/ k = "prior") /\
    forall i k, (i < length evs)%nat -> In k names \/ k = "prior" -> assoc k (pe_event a i) = assoc k (pe_event full i).
Proof.
  intros E0 E1 E2 Nc Hi. destruct (append_nine _ _ _ _ _ (processed_eight _ _ _ _ _ _ E1) E2) as (PV & HP & S & L).
  assert (S' : pe_shape full) by (unfold pe_shape; rewrite HP; exact S).
  destruct (select_plain w full names HP S' Nc Hi) as (a & E & _ & A1 & A2 & A3 & A4 & A5). exists a. unfold load_posterior_dataset. cbn [rbind]. rewrite E0. cbn [rbind]. rewrite E1. cbn [rbind]. rewrite E2. cbn [rbind]. rewrite E. cbn [rbind].
  rewrite L in *. split; auto. split; [congruence|]. auto.
Qed.
Theorem load_posterior_chieff h5 read choice w c mmax meta kf names posts evs c1 full c2 n :
  unprocessed_catalog_dict_from_metadata h5 meta = Ok posts ->
  processed_catalog_dataset_from_dict choice c mmax posts = Ok (evs, c1) ->
  append_prior_to_processed_catalog c1 evs names = Ok (full, c2) ->
  In "chi_eff" names -> ~ In "chi_p" names ->
  (forall i, (i < length evs)%nat -> is_table n (pe_event full i) /\ forall j, (j < n)%nat -> exists p, converted_prior w false (spins_at (pe_event full i) j) p) ->
  exists a, load_posterior_dataset h5 read choice w c mmax (Some meta) kf names = Ok (a, c2) /\ pe_events a = keys evs /\ length (pe_values a) = length evs /\
    pe_params a = ["mass_1"; second_mass names; "redshift"; "chi_eff"; "prior"] /\
    forall i, (i < length evs)%nat ->
      (forall k, In k ["mass_1"; second_mass names; "redshift"] -> assoc k (pe_event a i) = assoc k (pe_event full i)) /\
      assoc "chi_eff" (pe_event a i) = Ok (map (fun j => row_chi (spins_at (pe_event full i) j)) (seq 0 n)) /\
      exists priors, assoc "prior" (pe_event a i) = Ok priors /\ Forall2 (fun j p => converted_prior w false (spins_at (pe_event full i) j) p) (seq 0 n) priors.
Proof.
  intros E0 E1 E2 Hc Np HT. destruct (append_nine _ _ _ _ _ (processed_eight _ _ _ _ _ _ E1) E2) as (PV & HP & S & L).
  assert (S' : pe_shape full) by (unfold pe_shape; rewrite HP; exact S). rewrite <- L in HT.
  destruct (select_chieff w full names n HP S' Hc Np HT) as (a & E & A1 & A2 & A3 & A4). exists a. unfold load_posterior_dataset. cbn [rbind]. rewrite E0. cbn [rbind]. rewrite E1. cbn [rbind]. rewrite E2. cbn [rbind]. rewrite E. cbn [rbind].
  rewrite L in *. split; auto. split; [congruence|]. auto.
Qed.
