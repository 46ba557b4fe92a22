(** Observation time, number of generated injections, and the posterior files read. *)
From Coq Require Import Lia Lra.
From Verif Require Export PSelection PConstruct PUtils MCollect PConversions NumFacts SpecSelection.
Open Scope R_scope.
Open Scope string_scope.
Open Scope list_scope.

(** The duration recorded in the attributes, in seconds: "analysis_time_s" if present, else "total_analysis_time",
    else "analysis_time". *)
Definition recorded_time (attrs : dict num) (t : num) : Prop :=
  assoc "analysis_time_s" attrs = Ok t \/
  (~ In "analysis_time_s" (keys attrs) /\ assoc "total_analysis_time" attrs = Ok t) \/
  (~ In "analysis_time_s" (keys attrs) /\ ~ In "total_analysis_time" (keys attrs) /\ assoc "analysis_time" attrs = Ok t).

Lemma bind_inv {A B} (r : result A) (k : A -> result B) b : rbind r k = Ok b -> exists a, r = Ok a /\ k a = Ok b.
Proof. destruct r as [a|e]; cbn [rbind]; [eauto|discriminate]. Qed.
Lemma assoc_err_keys {A} k (d : dict A) e : assoc k d = Err e -> ~ In k (keys d).
Proof. intros E H. apply assoc_keys in H as [v Hv]. congruence. Qed.
Lemma time_recorded attrs t : analysis_time attrs = Ok t -> recorded_time attrs t.
Proof.
  unfold analysis_time, recorded_time. cbn [fold_left].
  destruct (assoc "analysis_time_s" attrs) as [a|e3] eqn:E3; [intros [= <-]; auto|].
  apply assoc_err_keys in E3. destruct (assoc "total_analysis_time" attrs) as [b|e2] eqn:E2; [intros [= <-]; auto|].
  apply assoc_err_keys in E2. destruct (assoc "analysis_time" attrs) as [c|e1] eqn:E1; [intros [= <-]; auto|discriminate].
Qed.
Lemma years_fin s : in_years (Fin s) = Fin (s / 31557600).
Proof. unfold in_years. rewrite !ndiv_fin by lra. f_equal. field. Qed.

Ltac inv_bind H :=
  match type of H with
  | rbind _ _ = Ok _ => apply bind_inv in H; destruct H as (? & ? & H); try inv_bind H
  end.
Lemma o4a_time f names ifar snr a : get_o4a_cumulative_injection_dict f names ifar snr = Ok a ->
  exists t, recorded_time (o4a_attrs f) t /\ ij_time a = in_years t /\ assoc "total_generated" (o4a_attrs f) = Ok (ij_total a).
Proof.
  unfold get_o4a_cumulative_injection_dict. cbv zeta. intros H. apply bind_inv in H as (total & Et & H). apply bind_inv in H as (t & Ea & H). inv_bind H.
  injection H as <-. exists t. split; [apply time_recorded; auto|]. split; auto.
Qed.
Lemma o3_time f names ifar snr cuts a : get_o3_cumulative_injection_dict f names ifar snr cuts = Ok a ->
  exists t, recorded_time (o3_attrs f) t /\ ij_time a = in_years t /\ assoc "total_generated" (o3_group_attrs f) = Ok (ij_total a).
Proof.
  unfold get_o3_cumulative_injection_dict. cbv zeta. intros H. do 4 (apply bind_inv in H as (? & _ & H)). apply bind_inv in H as (total & Et & H). apply bind_inv in H as (t & Ea & H).
  inv_bind H.
  match type of H with (let '(_, _) := ?p in _) = _ => destruct p end. injection H as <-. exists t. split; [apply time_recorded; auto|]. split; auto.
Qed.
Lemma load_keeps w injs names a : load_injection_dataset w (Ok injs) names = Ok a -> ij_time a = ij_time injs /\ ij_total a = ij_total injs.
Proof.
  unfold load_injection_dataset. cbn [rbind]. destruct (requested "chi_eff" names); intros H; inv_bind H; injection H as <-; auto.
Qed.

Lemma loaded_time : forall w file names o4a o3 ifar snr cuts a,
  load_injection_dataset w (read_injections file names o4a o3 ifar snr cuts) names = Ok a ->
  exists attrs tattrs t, (match file with FileO4a f => attrs = o4a_attrs f /\ tattrs = o4a_attrs f | FileO3 f => attrs = o3_group_attrs f /\ tattrs = o3_attrs f end) /\
    recorded_time tattrs t /\ (forall s, t = Fin s -> ij_time a = Fin (s / (36525 / 100 * 24 * 60 * 60))) /\
    assoc "total_generated" attrs = Ok (ij_total a).
Proof.
  intros w file names o4a o3 ifar snr cuts a H. destruct (read_injections file names o4a o3 ifar snr cuts) as [b|e] eqn:E; [|discriminate].
  apply load_keeps in H as [T1 T2]. unfold read_injections in E.
  destruct o4a; [|destruct o3; [|discriminate]]; destruct file as [f|f]; try discriminate.
  - apply o4a_time in E as (t & R & Y & G). exists (o4a_attrs f), (o4a_attrs f), t. rewrite T1, T2, Y. split; [auto|]. split; [auto|]. split; [|auto].
    intros s ->. rewrite years_fin. f_equal. field.
  - apply o3_time in E as (t & R & Y & G). exists (o3_group_attrs f), (o3_attrs f), t. rewrite T1, T2, Y. split; [auto|]. split; [auto|]. split; [|auto].
    intros s ->. rewrite years_fin. f_equal. field.
Qed.
Lemma no_run_flag : forall w file names ifar snr cuts,
  load_injection_dataset w (read_injections file names false false ifar snr cuts) names = Err AssertionError.
Proof. reflexivity. Qed.

(** ** Posterior files *)
Definition dataset_path (m : event_meta) : list string :=
  if String.eqb (em_catalog m) "GWTC-1" then em_waveform m :: nil else [em_waveform m; "posterior_samples"].
Lemma catalog_read : forall h5 meta cat,
  unprocessed_catalog_dict_from_metadata h5 meta = Ok cat <->
  Forall2 (fun m p => fst p = fst m /\ ep_z_prior (snd p) = em_z_prior (snd m) /\ ep_catalog (snd p) = em_catalog (snd m) /\
    (em_catalog (snd m) = "GWTC-1" -> h5 (em_path (snd m)) (em_waveform (snd m) :: nil) = Ok (ep_samples (snd p))) /\
    (em_catalog (snd m) <> "GWTC-1" -> h5 (em_path (snd m)) [em_waveform (snd m); "posterior_samples"] = Ok (ep_samples (snd p)))) meta cat.
Proof.
  intros h5. induction meta as [|[ev m] meta IH]; intros cat; cbn [unprocessed_catalog_dict_from_metadata].
  - split; [intros [= <-]; constructor|]. intros H. inversion H. reflexivity.
  - split.
    + intros H. apply bind_inv in H as (post & Ep & H). apply bind_inv in H as (rest & Er & H). injection H as <-.
      constructor; [|apply IH; auto]. cbn [fst snd ep_z_prior ep_catalog ep_samples]. split; [auto|]. split; [auto|]. split; [auto|].
      destruct (String.eqb_spec (em_catalog m) "GWTC-1"); split; intros; try contradiction; auto.
    + intros H. inversion H as [|? [ev' p] ? cat' H1 H2]; subst. cbn [fst snd] in H1. destruct H1 as (-> & Ez & Ec & G1 & G2).
      apply IH in H2. rewrite H2. destruct p as [sm z c]. cbn [ep_samples ep_z_prior ep_catalog] in *. subst.
      destruct (String.eqb_spec (em_catalog m) "GWTC-1") as [Q|Q]; [rewrite (G1 Q)|rewrite (G2 Q)]; reflexivity.
Qed.
Lemma catalog_first_error : forall h5 meta e,
  unprocessed_catalog_dict_from_metadata h5 meta = Err e ->
  exists m, In m meta /\ (h5 (em_path (snd m)) (em_waveform (snd m) :: nil) = Err e \/ h5 (em_path (snd m)) [em_waveform (snd m); "posterior_samples"] = Err e).
Proof.
  intros h5. induction meta as [|[ev m] meta IH]; intros e; cbn [unprocessed_catalog_dict_from_metadata]; [discriminate|].
  destruct (String.eqb (em_catalog m) "GWTC-1").
  - destruct (h5 _ _) as [p|x] eqn:Ep; cbn [rbind].
    + destruct (unprocessed_catalog_dict_from_metadata h5 meta) as [c|x] eqn:Er; cbn [rbind]; [discriminate|].
      intros [= <-]. destruct (IH x eq_refl) as (m' & Hm & K). exists m'. split; [right; auto|auto].
    + intros [= <-]. exists (ev, m). split; [left; auto|auto].
  - destruct (h5 _ _) as [p|x] eqn:Ep; cbn [rbind].
    + destruct (unprocessed_catalog_dict_from_metadata h5 meta) as [c|x] eqn:Er; cbn [rbind]; [discriminate|].
      intros [= <-]. destruct (IH x eq_refl) as (m' & Hm & K). exists m'. split; [right; auto|auto].
    + intros [= <-]. exists (ev, m). split; [left; auto|auto].
Qed.

(** ** Effective spins of a row *)
Lemma effective_spins : forall q a1 a2 c1 c2 p, 0 <= q -> -1 <= c1 <= 1 -> -1 <= c2 <= 1 ->
  row_chi (SpinRow (Fin q) (Fin a1) (Fin a2) (Fin c1) (Fin c2) p) = Fin ((a1 * c1 + q * a2 * c2) / (1 + q)) /\
  row_chip (SpinRow (Fin q) (Fin a1) (Fin a2) (Fin c1) (Fin c2) p)
    = Fin (Rmax (a1 * sqrt (1 - c1 ^ 2)) ((3 + 4 * q) / (4 + 3 * q) * q * a2 * sqrt (1 - c2 ^ 2))).
Proof. intros. split; [apply chieff_fin; auto|apply chip_fin; auto]. Qed.
