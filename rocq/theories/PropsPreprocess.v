(** Property theorems C73-C83, C97, C98 (gwinferno/preprocess: selection.py and data_collection.py). *)
From Coq Require Import Lia Lra.
From Verif Require Import NumFacts ArrFacts PSelection PResample PCollect PCollectCut PCollectAppend PCollectEnd PSelection2 PCosmologyTab PCosmologyR ExPreprocess.
From Verif Require Import MPriors PCollectIso PDilog.
From Verif Require Import Spec SpecNewton SpecAnalysis SpecCosmology SpecCosmologyQ SpecLoad.
Open Scope R_scope.
Open Scope string_scope.
Open Scope list_scope.

(** ** C73: an injection is kept exactly when it passes a threshold *)
Theorem C73_found_o4a : forall n f names ifar snr total, good_o4a n f -> neqb ifar (Fin 0) = false ->
  assoc "total_generated" (o4a_attrs f) = Ok total -> has_time (o4a_attrs f) ->
  exists sel a, get_o4a_cumulative_injection_dict f names ifar snr = Ok a /\
    selects n (found_o4a (o4a_events f) ifar snr) sel /\ ij_total a = total /\
    injection_columns (o4a_events f) names (requested_prior (o4a_events f) names (o4a_density f)) sel (ij_params a).
Proof. exact o4a_reads. Qed.
Print Assumptions C73_found_o4a.

Theorem C73_found_o3 : forall n f names ifar snr total, good_o3 n f ->
  (asks_spins names = true -> incl spin_fields (keys (o3_cols f))) ->
  assoc "total_generated" (o3_group_attrs f) = Ok total -> has_time (o3_attrs f) ->
  exists sel a, get_o3_cumulative_injection_dict f names ifar snr None = Ok a /\
    selects n (found_o3 f ifar snr) sel /\ ij_total a = total /\
    injection_columns (o3_cols f) names (requested_prior (o3_cols f) names (o3_density f)) sel (ij_params a).
Proof.
  intros n f names ifar snr total G S T Tm. destruct (o3_reads n f names ifar snr None total G I S T Tm) as (sel & a & E & [S1 S2] & K).
  exists sel, a. split; [exact E|]. split; [|exact K]. split; [exact S1|]. intros j. rewrite S2. cbn. tauto.
Qed.
Print Assumptions C73_found_o3.

Theorem C73_run_flag : forall w file names ifar snr cuts,
  load_injection_dataset w (read_injections file names false false ifar snr cuts) names = Err AssertionError.
Proof. exact no_run_flag. Qed.
Print Assumptions C73_run_flag.

(** a lower SNR threshold and a lower inverse-FAR threshold (a higher FAR) never lose an injection or change the total *)
Theorem C73_monotone : forall names ifar ifar' snr snr' file o4a cuts n t t' dens dens' total total' P P',
  reads names ifar snr file o4a cuts n t dens total P -> reads names ifar' snr' file o4a cuts n t' dens' total' P' ->
  (exists x x', ifar = Fin x /\ ifar' = Fin x' /\ 0 < x' <= x) -> nle snr' snr = true ->
  exists sel sel' a a', read_injections file names o4a true ifar snr cuts = Ok a /\ read_injections file names o4a true ifar' snr' cuts = Ok a' /\
    selects n P sel /\ selects n P' sel' /\ incl sel sel' /\ ij_total a' = ij_total a.
Proof. intros. eapply end_monotone; eauto. Qed.
Print Assumptions C73_monotone.

Example C73_case : good_o4a 2 ex_o4a /\ neqb (Fin 1) (Fin 0) = false /\ assoc "total_generated" (o4a_attrs ex_o4a) = Ok (Fin 1000) /\ has_time (o4a_attrs ex_o4a) /\
  found_o4a (o4a_events ex_o4a) (Fin 1) (Fin 10) 0 /\ good_o3 1 (ex_o3 2 1) /\ found_o3 (ex_o3 2 1) (Fin 1) (Fin 10) 0 /\ ~ found_o3 (ex_o3 1 1) (Fin 1) (Fin 10) 0.
Proof.
  split; [apply ex_o4a_good|]. split; [unfold neqb; apply Reqb_f; lra|]. split; [reflexivity|]. split; [apply ex_time; cbn; tauto|].
  split; [apply ex_o4a_found|]. split; [apply ex_o3_good|]. split; [apply ex_o3_found; lra|apply ex_o3_lost; lra].
Qed.

(** ** C74: additional cuts.  They are united with the thresholds: they only add injections. *)
Theorem C74_cuts_add : forall n f names ifar snr cuts total, good_o3 n f -> good_cuts f (Some cuts) ->
  (asks_spins names = true -> incl spin_fields (keys (o3_cols f))) ->
  assoc "total_generated" (o3_group_attrs f) = Ok total -> has_time (o3_attrs f) ->
  exists sel a, get_o3_cumulative_injection_dict f names ifar snr (Some cuts) = Ok a /\
    selects n (fun j => found_o3 f ifar snr j \/ exists k v, In (k, v) cuts /\ nle v (cell (o3_cols f) k j) = true) sel.
Proof.
  intros n f names ifar snr cuts total G C S T Tm. destruct (o3_reads n f names ifar snr (Some cuts) total G C S T Tm) as (sel & a & E & K & _). eauto.
Qed.
Print Assumptions C74_cuts_add.
(** an injection that passes no threshold is selected as soon as a cut is supplied *)
Theorem C74_additional_cuts_refuted : exists n f names ifar snr cuts sel sel' a a' j, good_o3 n f /\
  get_o3_cumulative_injection_dict f names ifar snr None = Ok a /\ selects n (found_o3 f ifar snr) sel /\ assoc "mass_1" (ij_params a) = Ok (map (cell (o3_cols f) "mass1_source") sel) /\
  get_o3_cumulative_injection_dict f names ifar snr (Some cuts) = Ok a' /\ assoc "mass_1" (ij_params a') = Ok (map (cell (o3_cols f) "mass1_source") sel') /\
  In j sel' /\ ~ In j sel.
Proof.
  exists 1%nat, (ex_o3 1 1), [], (Fin 1), (Fin 10), (("mass1_source", Fin 5) :: nil).
  destruct (C73_found_o3 1 (ex_o3 1 1) [] (Fin 1) (Fin 10) (Fin 500)) as (sel & a & E & S & _ & K); [apply ex_o3_good|discriminate|reflexivity|exists "analysis_time_s"; cbn; tauto|].
  destruct (o3_reads 1 (ex_o3 1 1) [] (Fin 1) (Fin 10) (Some (("mass1_source", Fin 5) :: nil)) (Fin 500)) as (sel' & a' & E' & S' & _ & K');
    [apply ex_o3_good|intros k [<-|[]]; cbn; tauto|discriminate|reflexivity|exists "analysis_time_s"; cbn; tauto|].
  exists sel, sel', a, a', O. split; [apply ex_o3_good|]. split; [exact E|]. split; [exact S|]. split; [apply K|]. split; [exact E'|]. split; [apply K'|]. split.
  - apply S'. split; [lia|]. right. exists "mass1_source", (Fin 5). split; [now left|]. change (cell _ _ _) with (Fin 30). unfold nle. apply Rleb_true. lra.
  - intros X. apply S in X. destruct X as [_ X]. revert X. apply ex_o3_lost. lra.
Qed.
Print Assumptions C74_additional_cuts_refuted.
Example C74_case : good_o3 1 (ex_o3 1 1) /\ good_cuts (ex_o3 1 1) (Some (("mass1_source", Fin 5) :: nil)) /\ incl spin_fields (keys (o3_cols (ex_o3 1 1))).
Proof. split; [apply ex_o3_good|]. split; [intros k [<-|[]]; cbn; tauto|]. intros k Hk. cbn in Hk. cbn. tauto. Qed.

(** ** C75: the stored prior of the injections *)
Theorem C75_prior_o4a : forall n f names ifar snr total, good_o4a n f -> neqb ifar (Fin 0) = false ->
  assoc "total_generated" (o4a_attrs f) = Ok total -> has_time (o4a_attrs f) ->
  exists sel a, get_o4a_cumulative_injection_dict f names ifar snr = Ok a /\ selects n (found_o4a (o4a_events f) ifar snr) sel /\
    assoc "prior" (ij_params a) = Ok (map (fun j =>
      times (asked "mass_ratio" names)
        (times (asked "a_1" names || asked "chi_eff" names)
           (ndiv (nexp (cell (o4a_events f) log_density_column j)) (cell (o4a_events f) "weights" j))
           (polar_jacobian (mag (o4a_events f) "1" j) (mag (o4a_events f) "2" j)))
        (cell (o4a_events f) "mass1_source" j)) sel).
Proof.
  intros n f names ifar snr total G N T Tm. destruct (o4a_reads n f names ifar snr total G N T Tm) as (sel & a & E & S & _ & K).
  exists sel, a. split; [exact E|]. split; [exact S|]. apply K.
Qed.
Print Assumptions C75_prior_o4a.
Theorem C75_prior_o3 : forall n f names ifar snr cuts total, good_o3 n f -> good_cuts f cuts ->
  (asks_spins names = true -> incl spin_fields (keys (o3_cols f))) ->
  assoc "total_generated" (o3_group_attrs f) = Ok total -> has_time (o3_attrs f) ->
  exists sel a, get_o3_cumulative_injection_dict f names ifar snr cuts = Ok a /\ selects n (fun j => found_o3 f ifar snr j \/ passes_cut f cuts j) sel /\
    assoc "prior" (ij_params a) = Ok (map (fun j =>
      times (asked "mass_ratio" names)
        (times (asked "a_1" names || asked "chi_eff" names) (cell (o3_cols f) "sampling_pdf" j)
           (polar_jacobian (mag (o3_cols f) "1" j) (mag (o3_cols f) "2" j)))
        (cell (o3_cols f) "mass1_source" j)) sel).
Proof.
  intros n f names ifar snr cuts total G C S T Tm. destruct (o3_reads n f names ifar snr cuts total G C S T Tm) as (sel & a & E & K & _ & KK).
  exists sel, a. split; [exact E|]. split; [exact K|]. apply KK.
Qed.
Print Assumptions C75_prior_o3.
(** the factors are those of the change of variables *)
Example C75_case : polar_jacobian (Fin 1) (Fin (1 / 2)) = Fin ((2 * PI * 1 ^ 2) * (2 * PI * (1 / 2) ^ 2)) /\ mag (ex_cols 2 1) "1" 0 = Fin 1 /\ times true (Fin 2) (Fin 3) = Fin 6.
Proof.
  split; [|split].
  - unfold polar_jacobian. rewrite !nmul_fin. f_equal; field.
  - unfold mag, magnitude. change (cell _ ("spin" ++ "1" ++ "x")%string 0) with (Fin 1). change (cell _ ("spin" ++ "1" ++ "y")%string 0) with (Fin 0). change (cell _ ("spin" ++ "1" ++ "z")%string 0) with (Fin 0).
    rewrite !nmul_fin, !nadd_fin. replace (1 * 1 + 0 * 0 + 0 * 0) with (1 * 1) by ring. rewrite nsqrt_fin by lra. now rewrite sqrt_square by lra.
  - cbn [times]. rewrite nmul_fin. f_equal; ring.
Qed.

(** ** C76: missing in-plane components.  Unless every row is selected, the reader raises instead. *)
Theorem C76_missing_components_refuted : forall n f names ifar snr cuts total j0 k, good_o3 n f -> good_cuts f cuts -> asks_spins names = true ->
  In k ["spin1x"; "spin1y"; "spin2x"; "spin2y"] -> ~ In k (keys (o3_cols f)) ->
  assoc "total_generated" (o3_group_attrs f) = Ok total -> has_time (o3_attrs f) ->
  (j0 < n)%nat -> ~ (found_o3 f ifar snr j0 \/ passes_cut f cuts j0) ->
  get_o3_cumulative_injection_dict f names ifar snr cuts = Err IndexError.
Proof. exact o3_missing_component. Qed.
Print Assumptions C76_missing_components_refuted.
Theorem C76_missing_components_partial : forall n f names ifar snr cuts total, good_o3 n f -> good_cuts f cuts -> asks_spins names = true ->
  (forall k, In k ["spin1x"; "spin1y"; "spin2x"; "spin2y"] -> ~ In k (keys (o3_cols f))) ->
  assoc "total_generated" (o3_group_attrs f) = Ok total -> has_time (o3_attrs f) ->
  (forall j, (j < n)%nat -> found_o3 f ifar snr j \/ passes_cut f cuts j) ->
  (forall j, (j < n)%nat -> cell (o3_cols f) "spin1z" j <> NaN /\ cell (o3_cols f) "spin2z" j <> NaN) ->
  exists a, get_o3_cumulative_injection_dict f names ifar snr cuts = Ok a /\
    assoc "a_1" (ij_params a) = Ok (map (fun j => nabs (cell (o3_cols f) "spin1z" j)) (seq 0 n)) /\
    assoc "a_2" (ij_params a) = Ok (map (fun j => nabs (cell (o3_cols f) "spin2z" j)) (seq 0 n)).
Proof. exact o3_missing_all_found. Qed.
Print Assumptions C76_missing_components_partial.
Definition ex_aligned (x : R) : o3_file :=
  O3 (filter (fun kc => negb (requested (fst kc) ["spin1x"; "spin1y"; "spin2x"; "spin2y"])) (ex_cols x 1)) None (("total_generated", Fin 500) :: nil) (("analysis_time_s", Fin 3000) :: nil).
Example C76_case : forall x, good_o3 1 (ex_aligned x) /\ asks_spins ("a_1" :: nil) = true /\ ~ In "spin1x" (keys (o3_cols (ex_aligned x))) /\ has_time (o3_attrs (ex_aligned x)) /\
  (x = 1 -> ~ (found_o3 (ex_aligned x) (Fin 1) (Fin 10) 0 \/ passes_cut (ex_aligned x) None 0)) /\ (x = 2 -> found_o3 (ex_aligned x) (Fin 1) (Fin 10) 0).
Proof.
  intros x. split; [|split; [reflexivity|split; [cbn; intuition discriminate|split; [exists "analysis_time_s"; cbn; tauto|split]]]].
  - split; [split|split].
    + cbn. repeat constructor; cbn; intuition discriminate.
    + cbn. repeat constructor.
    + intros k Hk. cbn in Hk. cbn. tauto.
    + exact I.
  - intros -> [[(k & A & B & D)|(nm & A & _)]|[]]; [|discriminate A]. cbn in A. destruct A as [<-|A].
    + change (cell (o3_cols (ex_aligned 1)) "ifar_pycbc" 0) with (Fin 1) in D. unfold nlt in D. rewrite Rltb_f in D by lra. discriminate.
    + repeat (destruct A as [<-|A]; [discriminate B|]). destruct A.
  - intros ->. left. exists "ifar_pycbc". split; [cbn; tauto|]. split; [reflexivity|]. change (cell _ _ _) with (Fin 2). unfold nlt. apply Rltb_t. lra.
Qed.

(** ** C77: the requested parameters are returned *)
Theorem C77_injections_plain : forall w names ifar snr file o4a cuts n t dens total P, reads names ifar snr file o4a cuts n t dens total P ->
  ~ In "chi_eff" names -> incl names (available names) ->
  exists sel a, load_injection_dataset w (read_injections file names o4a true ifar snr cuts) names = Ok a /\
    selects n P sel /\ ij_total a = total /\ plain_columns t names (requested_prior t names dens) sel (ij_params a).
Proof. exact end_plain. Qed.
Print Assumptions C77_injections_plain.
Theorem C77_injections_effective : forall w names ifar snr file o4a cuts n t dens total P, reads names ifar snr file o4a cuts n t dens total P ->
  In "chi_eff" names -> (forall j, (j < n)%nat -> P j -> exists p, converted_prior w (asked "chi_p" names) (injection_spins t (requested_prior t names dens) j) p) ->
  exists sel a, load_injection_dataset w (read_injections file names o4a true ifar snr cuts) names = Ok a /\
    selects n P sel /\ ij_total a = total /\ effective_columns w t names (requested_prior t names dens) sel (ij_params a).
Proof. exact end_effective. Qed.
Print Assumptions C77_injections_effective.
Theorem C77_posteriors_plain : forall h5 read choice w c mmax meta kf names posts evs c1 full c2,
  unprocessed_catalog_dict_from_metadata h5 meta = Ok posts ->
  processed_catalog_dataset_from_dict choice c mmax posts = Ok (evs, c1) ->
  append_prior_to_processed_catalog c1 evs names = Ok (full, c2) ->
  ~ In "chi_eff" names -> incl names ["mass_1"; "mass_2"; "mass_ratio"; "redshift"; "a_1"; "a_2"; "cos_tilt_1"; "cos_tilt_2"] ->
  exists a, load_posterior_dataset h5 read choice w c mmax (Some meta) kf names = Ok (a, c2) /\ pe_events a = keys evs /\ length (pe_values a) = length evs /\ NoDup (pe_params a) /\
    (forall k, In k (pe_params a) <-> In k names \/ k = "prior") /\
    forall i k, (i < length evs)%nat -> In k names \/ k = "prior" -> assoc k (pe_event a i) = assoc k (pe_event full i).
Proof. exact load_posterior_plain. Qed.
Print Assumptions C77_posteriors_plain.
Theorem C77_posteriors_effective : forall h5 read choice w c mmax meta kf names posts evs c1 full c2 n,
  unprocessed_catalog_dict_from_metadata h5 meta = Ok posts ->
  processed_catalog_dataset_from_dict choice c mmax posts = Ok (evs, c1) ->
  append_prior_to_processed_catalog c1 evs names = Ok (full, c2) ->
  In "chi_eff" names -> ~ In "chi_p" names ->
  (forall i, (i < length evs)%nat -> is_table n (pe_event full i) /\ forall j, (j < n)%nat -> exists p, converted_prior w false (spins_at (pe_event full i) j) p) ->
  exists a, load_posterior_dataset h5 read choice w c mmax (Some meta) kf names = Ok (a, c2) /\ pe_events a = keys evs /\ length (pe_values a) = length evs /\
    pe_params a = ["mass_1"; second_mass names; "redshift"; "chi_eff"; "prior"] /\
    forall i, (i < length evs)%nat ->
      (forall k, In k ["mass_1"; second_mass names; "redshift"] -> assoc k (pe_event a i) = assoc k (pe_event full i)) /\
      assoc "chi_eff" (pe_event a i) = Ok (map (fun j => spin_chi_eff (spins_at (pe_event full i) j)) (seq 0 n)) /\
      exists priors, assoc "prior" (pe_event a i) = Ok priors /\ Forall2 (fun j p => converted_prior w false (spins_at (pe_event full i) j) p) (seq 0 n) priors.
Proof. exact load_posterior_chieff. Qed.
Print Assumptions C77_posteriors_effective.
(** a spin parameter of the second component, or a tilt, without a_1 is not returned: the injection loader raises *)
Theorem C77_second_spin_refuted : forall w names ifar snr file o4a cuts n t dens total P k, reads names ifar snr file o4a cuts n t dens total P ->
  ~ In "chi_eff" names -> ~ In "prior" names -> ~ In "a_1" names -> In k names -> In k ["a_2"; "cos_tilt_1"; "cos_tilt_2"] ->
  load_injection_dataset w (read_injections file names o4a true ifar snr cuts) names = Err KeyError.
Proof.
  intros w names ifar snr file o4a cuts n t dens total P k R A B C D E. apply (end_missing w _ _ _ _ _ _ _ _ _ _ _ k R); auto.
  unfold available. change asked with requested. apply PCollectLoad.req_out in C. rewrite C. cbn in *. intuition (subst; discriminate).
Qed.
Print Assumptions C77_second_spin_refuted.
(** with effective spins, a request for both mass_2 and mass_ratio loses mass_ratio *)
Theorem C77_both_masses_refuted : forall w names ifar snr file o4a cuts n t dens total P, reads names ifar snr file o4a cuts n t dens total P ->
  In "chi_eff" names -> In "mass_2" names -> In "mass_ratio" names ->
  (forall j, (j < n)%nat -> P j -> exists p, converted_prior w (asked "chi_p" names) (injection_spins t (requested_prior t names dens) j) p) ->
  exists a, load_injection_dataset w (read_injections file names o4a true ifar snr cuts) names = Ok a /\ ~ In "mass_ratio" (keys (ij_params a)).
Proof.
  intros w names ifar snr file o4a cuts n t dens total P R A B C D. destruct (end_effective w _ _ _ _ _ _ _ _ _ _ _ R A D) as (sel & a & E & _ & _ & K & _).
  exists a. split; [exact E|]. rewrite K. unfold second_mass. change asked with requested. apply PCollectLoad.req_in in B. rewrite B. destruct (requested "chi_p" names); cbn; intuition discriminate.
Qed.
Print Assumptions C77_both_masses_refuted.
Definition unit_spin_priors : spin_priors := SpinPriors (fun _ _ => Ok (Fin (1 / 2))) (fun _ _ _ => Ok (Fin (1 / 2))).
Example C77_case : reads ["mass_1"; "redshift"; "a_1"] (Fin 1) (Fin 10) (FileO4a ex_o4a) true None 2 (o4a_events ex_o4a) (o4a_density ex_o4a) (Fin 1000) (found_o4a (o4a_events ex_o4a) (Fin 1) (Fin 10)) /\
  incl ["mass_1"; "redshift"; "a_1"] (available ["mass_1"; "redshift"; "a_1"]) /\
  (forall b s, exists p, converted_prior unit_spin_priors b s p).
Proof.
  split; [apply ex_o4a_reads|]. split; [intros k Hk; cbn in Hk; cbn; tauto|].
  intros b s. eexists. exists (Fin (1 / 2)). split; [destruct b; reflexivity|reflexivity].
Qed.
(** a catalog of one event goes through the whole chain *)
Definition ex_h5 (path : string) (ks : list string) : result (dict (list num)) := Ok (map (fun p => (source_name p, [Fin (1 / 2); Fin (1 / 3)])) PARAMS).
Definition ex_meta : dict event_meta := ("GW1", Meta "f.h5" "IMR" "euclidean" "GWTC-2") :: nil.
Example C77_chain : forall c, exists posts evs full, unprocessed_catalog_dict_from_metadata ex_h5 ex_meta = Ok posts /\
  processed_catalog_dataset_from_dict first_ones c (Fin 100) posts = Ok (evs, c) /\ append_prior_to_processed_catalog c evs ["mass_1"; "a_1"] = Ok (full, c) /\ length evs = 1%nat.
Proof.
  intros c. exists (("GW1", flat_event [1 / 2; 1 / 3]) :: nil). destruct (flat_processed c (Fin 100) "GW1" [1 / 2; 1 / 3]) as (d & E & _).
  assert (Q : exists p, event_prior ["mass_1"; "a_1"] None d = Ok p).
  { pose proof (PCollectPost.processed_eight _ _ _ _ _ _ E) as F. inversion F as [|? ? L _]. subst. cbn [snd] in L. unfold event_prior, row_of. cbn [rbind].
    change (requested "mass_1" ["mass_1"; "a_1"]) with true. change (index_of "redshift" PARAMS) with (Ok 3%nat). cbn [rbind].
    destruct (ed_rows d) as [|r0 [|r1 [|r2 [|r3 rr]]]]; try discriminate L. cbn [nth_error rbind]. change (requested "mass_ratio" ["mass_1"; "a_1"]) with false. cbn [rbind]. eauto. }
  destruct Q as [p Q]. exists (("GW1", d) :: nil). eexists. split; [reflexivity|]. split; [exact E|]. split; [|reflexivity].
  unfold append_prior_to_processed_catalog. change (requested "redshift" ["mass_1"; "a_1"]) with false. cbn [rbind event_rows]. rewrite Q. cbn [rbind]. reflexivity.
Qed.

(** ** C78: the mass cut.  No fixed rule on (mass_1, mmax) describes it, and it does not exist for GWTC-1 events. *)
Theorem C78_one_rule_refuted : ~ exists keep : num -> num -> bool, one_rule keep.
Proof. exact no_rule. Qed.
Print Assumptions C78_one_rule_refuted.
Theorem C78_gwtc1_refuted : forall choice c mmax mmax' ev e, is_gwtc1 e ->
  processed_catalog_dataset_from_dict choice c mmax ((ev, e) :: nil) = processed_catalog_dataset_from_dict choice c mmax' ((ev, e) :: nil).
Proof. exact gwtc1_uncut. Qed.
Print Assumptions C78_gwtc1_refuted.
(** what does hold: outside GWTC-1 no sample above mmax survives, and no sample below it is lost to the cut *)
Theorem C78_above_partial : forall choice c mmax cat evs c' ev d, is_sampling choice -> good_catalog cat -> NoDup (keys cat) ->
  processed_catalog_dataset_from_dict choice c mmax cat = Ok (evs, c') -> In (ev, d) evs -> ed_catalog d <> "GWTC-1" ->
  forall m, In m (nth 0 (ed_rows d) []) -> nlt mmax m = false.
Proof. exact cut_above. Qed.
Print Assumptions C78_above_partial.
Theorem C78_below_partial : forall choice c mmax ev e n evs c' j, is_sampling choice -> good_event n e -> ~ is_gwtc1 e -> (n <= 10000)%nat ->
  processed_catalog_dataset_from_dict choice c mmax ((ev, e) :: nil) = Ok (evs, c') ->
  (j < n)%nat -> nlt (cell (ep_samples e) "mass_1_source" j) mmax = true ->
  exists d i, evs = (ev, d) :: nil /\ (i < n_samples d)%nat /\ map (fun row => nth i row NaN) (ed_rows d) = map (fun p => cell (ep_samples e) (column_of p) j) parameter_order.
Proof. exact cut_below. Qed.
Print Assumptions C78_below_partial.
Example C78_case : is_sampling first_ones /\ good_event 3 (flat_event [50; 100; 101]) /\ ~ is_gwtc1 (flat_event [50; 100; 101]) /\
  nlt (cell (ep_samples (flat_event [50; 100; 101])) "mass_1_source" 0) (Fin 100) = true.
Proof.
  split; [apply first_ones_ok|]. split; [apply (flat_good [50; 100; 101])|]. split; [intros X; discriminate X|].
  change (cell _ _ _) with (Fin 50). unfold nlt. apply Rltb_t. lra.
Qed.

(** ** C79: down-sampling keeps intact, distinct samples *)
Theorem C79_downsampling : forall choice c mmax cat evs c', is_sampling choice -> good_catalog cat ->
  processed_catalog_dataset_from_dict choice c mmax cat = Ok (evs, c') ->
  c' = c /\ exists k, (k <= 10000)%nat /\ Forall2 (processed_rel c mmax k) cat evs /\
    (k = 10000%nat \/ exists ke n all, In ke cat /\ good_event n (snd ke) /\ selects n (survives mmax (snd ke) n) all /\ length all = k).
Proof. exact processed_ok. Qed.
Print Assumptions C79_downsampling.
Theorem C79_succeeds : forall choice c mmax cat, good_catalog cat -> Forall (fun ke : string * event_post => ~ is_gwtc1 (snd ke)) cat ->
  exists evs, processed_catalog_dataset_from_dict choice c mmax cat = Ok (evs, c).
Proof. exact processed_succeeds. Qed.
Print Assumptions C79_succeeds.
Example C79_case : good_catalog [("a", flat_event [50; 100; 101]); ("b", flat_event [1; 2])] /\ is_sampling first_ones.
Proof.
  split; [|apply first_ones_ok]. repeat constructor; [exists 3%nat; apply (flat_good [50; 100; 101])|exists 2%nat; apply (flat_good [1; 2])].
Qed.

(** ** C80: the prior of the posterior samples *)
Theorem C80_prior : forall ho om orad ol zm c qs evs k xs names, flat ho om orad ol -> 0 < zm ->
  make_cosmo (Fin ho) (Fin om) (Fin orad) (Fin ol) (Fin zm) (Fin DEFAULT_DZ) = Ok c ->
  evs <> [] -> (0 < k)%nat -> Forall2 (fun ed x => real_event k (snd ed) x) evs xs ->
  Forall (fun ed : string * event_data => In (ed_z_prior (snd ed)) ["euclidean"; "comoving"]) evs ->
  exists a c' zs pe pc pze pzc, append_prior_to_processed_catalog (history c qs (Fin DEFAULT_DZ)) evs names = Ok (a, c') /\
    (increasing zs /\ (2 <= length zs)%nat /\ nth 0 zs 0 = 0 /\ (forall x j, In x xs -> (j < k)%nat -> x "redshift" j <= nth (length zs - 1) zs 0)) /\
    (grid_density zs pe /\ linear_through zs pe pze /\ exists dl c1, z2DL (history c qs (Fin DEFAULT_DZ)) (map Fin zs) (Fin DEFAULT_DZ) = Ok (map Fin dl, c1) /\
       proportional pe (map2 (fun z dl => euclidean_shape z dl (comoving_rate ho om orad z)) zs dl)) /\
    (grid_density zs pc /\ linear_through zs pc pzc /\ exists d c1 c2, z2Dc c1 (map Fin zs) (Fin DEFAULT_DZ) = Ok (map Fin d, c2) /\
       proportional pc (map2 (fun z d => comoving_shape z d (comoving_rate ho om orad z)) zs d)) /\
    pe_events a = keys evs /\ pe_params a = parameter_order ++ "prior" :: nil /\ length (pe_values a) = length evs /\
    forall i ed x, nth_error evs i = Some ed -> nth_error xs i = Some x ->
      nth i (pe_values a) [] = ed_rows (snd ed) ++ (map (fun j => Fin (sample_prior names (if String.eqb (ed_z_prior (snd ed)) "euclidean" then pze else pzc) (x "redshift" j) (x "mass_1" j))) (seq 0 k) :: nil).
Proof. exact append_ok. Qed.
Print Assumptions C80_prior.
Theorem C80_undeclared_raises : forall ho om orad ol zm c qs evs k xs names, flat ho om orad ol -> 0 < zm ->
  make_cosmo (Fin ho) (Fin om) (Fin orad) (Fin ol) (Fin zm) (Fin DEFAULT_DZ) = Ok c ->
  (0 < k)%nat -> Forall2 (fun ed x => real_event k (snd ed) x) evs xs -> In "redshift" names ->
  Exists (fun ed : string * event_data => ~ In (ed_z_prior (snd ed)) ["euclidean"; "comoving"]) evs ->
  append_prior_to_processed_catalog (history c qs (Fin DEFAULT_DZ)) evs names = Err AssertionError.
Proof. exact append_undeclared. Qed.
Print Assumptions C80_undeclared_raises.
Definition ex_event (zp : string) : event_data := EvData (map (fun p => map (fun j => Fin (INR j)) (seq 0 3)) PARAMS) zp "GWTC-2".
Example C80_case : Forall2 (fun ed x => real_event 3 (snd ed) x) [("a", ex_event "euclidean"); ("b", ex_event "comoving")] [fun _ j => INR j; fun _ j => INR j] /\
  Forall (fun ed : string * event_data => In (ed_z_prior (snd ed)) ["euclidean"; "comoving"]) [("a", ex_event "euclidean"); ("b", ex_event "comoving")] /\
  ~ In (ed_z_prior (ex_event "flat")) ["euclidean"; "comoving"] /\ flat 70 (3 / 10) 0 (7 / 10) /\
  exists c, make_cosmo (Fin 70) (Fin (3 / 10)) (Fin 0) (Fin (7 / 10)) (Fin 1) (Fin DEFAULT_DZ) = Ok c.
Proof.
  split; [repeat constructor|]. split; [repeat constructor; cbn; tauto|]. split; [cbn; intuition discriminate|].
  assert (F : flat 70 (3 / 10) 0 (7 / 10)) by (unfold flat; lra). split; [exact F|].
  destruct (tables_increase 70 (3 / 10) 0 (7 / 10) 1 DEFAULT_DZ F) as (c & n & Dc & DL & Vc & E & _); [unfold DEFAULT_DZ; lra|lra|eauto].
Qed.

(** ** C81: the effective-spin prior.  The stored prior is the intended one times the Cartesian density of the spins:
    the change of variables is undone although the component spins are gone. *)
Theorem C81_injections_refuted : forall w names ifar snr file o4a cuts n t dens total P, reads names ifar snr file o4a cuts n t dens total P ->
  In "chi_eff" names -> ~ In "chi_p" names -> (forall chi q, exists x, pchi w chi q = Ok x) ->
  exists sel a priors, load_injection_dataset w (read_injections file names o4a true ifar snr cuts) names = Ok a /\
    selects n P sel /\ assoc "prior" (ij_params a) = Ok priors /\
    forall i j p a1 a2 m1 x, nth_error sel i = Some j -> injection_value t "a_1" j = Fin a1 -> injection_value t "a_2" j = Fin a2 -> 0 < a1 -> 0 < a2 ->
      injection_value t "mass_1" j = Fin m1 -> dens j = Fin (p * isotropic_density a1 a2) ->
      pchi w (spin_chi_eff (injection_spins t (requested_prior t names dens) j)) (injection_value t "mass_ratio" j) = Ok (Fin x) ->
      let intended := p * factor (asked "mass_ratio" names) m1 * x in
      nth_error priors i = Some (Fin (intended * isotropic_density a1 a2)) /\
      (intended <> 0 -> (intended * isotropic_density a1 a2 = intended <-> sphere a1 * sphere a2 = 1)).
Proof. exact end_isotropic. Qed.
Print Assumptions C81_injections_refuted.
(** the same for posterior samples: p is the stored density of the other parameters *)
Theorem C81_posteriors_refuted : forall w (s : spin_row) p' p a1 a2 x, converted_prior w false s p' -> sr_a1 s = Fin a1 -> sr_a2 s = Fin a2 -> sr_prior s = Fin p -> 0 < a1 -> 0 < a2 ->
  pchi w (spin_chi_eff s) (sr_q s) = Ok (Fin x) -> p' = Fin (p * x / (sphere a1 * sphere a2 / 4)) /\ (p * x <> 0 -> (p' = Fin (p * x) <-> sphere a1 * sphere a2 = 4)).
Proof. exact effective_posterior. Qed.
Print Assumptions C81_posteriors_refuted.
(** the effective spins of a row are the mass-weighted ones *)
Theorem C81_effective_spin_values : forall q a1 a2 c1 c2 p, 0 <= q -> -1 <= c1 <= 1 -> -1 <= c2 <= 1 ->
  spin_chi_eff (SpinRow (Fin q) (Fin a1) (Fin a2) (Fin c1) (Fin c2) p) = Fin ((a1 * c1 + q * a2 * c2) / (1 + q)) /\
  spin_chi_p (SpinRow (Fin q) (Fin a1) (Fin a2) (Fin c1) (Fin c2) p)
    = Fin (Rmax (a1 * sqrt (1 - c1 ^ 2)) ((3 + 4 * q) / (4 + 3 * q) * q * a2 * sqrt (1 - c2 ^ 2))).
Proof. exact effective_spins. Qed.
Print Assumptions C81_effective_spin_values.
(** with the code's own density of chi_eff: p times the density, at the row's chi_eff, of the mass-weighted sum of two isotropic
    spins of uniform magnitude, over the Cartesian volume element; off the points where two cases of the formula meet *)
Theorem C81_isotropic_prior_partial : forall n D Di pj q a1 a2 c1 c2 p, 0 < q <= 1 -> 0 < a1 -> 0 < a2 -> -1 <= c1 <= 1 -> -1 <= c2 <= 1 ->
  dilogarithm D -> (forall y, Di (Fin y) = Fin (D y)) -> forall chi, chi = (a1 * c1 + q * a2 * c2) / (1 + q) ->
  chi = 0 \/ (Rabs chi <> (1 - q) / (1 + q) /\ Rabs chi <> q / (1 + q) /\ Rabs chi <> 1 / (1 + q)) ->
  exists v, 0 <= v /\ newton_integral (fun s => iso_spin 1 s * iso_spin 1 (((1 + q) * chi - s) / q) * ((1 + q) / q)) (-1) 1 v /\
    new_prior (SpinPriors (iso_pchi (S n) Di) pj) false (SpinRow (Fin q) (Fin a1) (Fin a2) (Fin c1) (Fin c2) (Fin p))
      = Ok (Fin (p * v / (sphere a1 * sphere a2 / 4))).
Proof. exact iso_prior. Qed.
Print Assumptions C81_isotropic_prior_partial.
(** there are spins for which it recurses until the call stack is exhausted, whatever its depth *)
Theorem C81_isotropic_prior_refuted : exists q a1 a2, 0 < q <= 1 /\ 0 < a1 <= 1 /\ 0 < a2 <= 1 /\
  forall n Di pj p, new_prior (SpinPriors (iso_pchi n Di) pj) false (SpinRow (Fin q) (Fin a1) (Fin a2) (Fin 1) (Fin 1) p) = Err RecursionError.
Proof. exact iso_prior_raises. Qed.
Print Assumptions C81_isotropic_prior_refuted.
(** and, for every mass ratio between 1/2 and 1, aligned spins for which the stored prior is nan *)
Theorem C81_isotropic_prior_nan_refuted : forall q, / 2 < q < 1 -> exists x, 0 < x < 1 /\
  forall n Di pj p, new_prior (SpinPriors (iso_pchi (S n) Di) pj) false (SpinRow (Fin q) (Fin x) (Fin x) (Fin 1) (Fin 1) p) = Ok NaN.
Proof. exact iso_prior_nan. Qed.
Print Assumptions C81_isotropic_prior_nan_refuted.
(** q = 1/2, a_1 = 3/8 aligned, a_2 = 1/2 in the orbital plane: chi_eff = 1/4 *)
Example C81_isotropic_case : dilogarithm PDilog.dilog /\ 1 / 4 = (3 / 8 * 1 + 1 / 2 * (1 / 2) * 0) / (1 + 1 / 2) /\
  Rabs (1 / 4) <> (1 - 1 / 2) / (1 + 1 / 2) /\ Rabs (1 / 4) <> 1 / 2 / (1 + 1 / 2) /\ Rabs (1 / 4) <> 1 / (1 + 1 / 2).
Proof. split; [exact PDilog.dilog_ok|]. rewrite Rabs_right by lra. repeat split; lra. Qed.
(** unit spins: the stored prior is 16 pi^2 times too small *)
Example C81_case : exists sel a priors, load_injection_dataset unit_spin_priors (read_injections (FileO3 (ex_o3 2 (isotropic_density 1 1))) ["mass_1"; "chi_eff"] false true (Fin 1) (Fin 10) None) ["mass_1"; "chi_eff"] = Ok a /\
  sel = O :: nil /\ assoc "prior" (ij_params a) = Ok priors /\ nth_error priors 0 = Some (Fin (1 / 2 * isotropic_density 1 1)) /\ isotropic_density 1 1 < 1.
Proof.
  destruct (C81_injections_refuted unit_spin_priors ["mass_1"; "chi_eff"] _ _ _ _ _ _ _ _ _ _ (ex_o3_reads ["mass_1"; "chi_eff"] 2 (isotropic_density 1 1) None I)) as (sel & a & ps & E & S & A & H).
  { cbn; tauto. } { cbn; intuition discriminate. } { intros; eexists; reflexivity. }
  assert (Es : sel = O :: nil) by (apply (selects_single _ _ S); left; apply ex_o3_found; lra).
  exists sel, a, ps. split; [exact E|]. split; [exact Es|]. split; [exact A|].
  assert (M : forall ii, In ii ["1"; "2"] -> mag (ex_cols 2 (isotropic_density 1 1)) ii 0 = Fin 1).
  { intros ii Hi. assert (X : mag (ex_cols 2 (isotropic_density 1 1)) ii 0 = magnitude (Fin 1) (Fin 0) (Fin 0)) by (destruct Hi as [<-|[<-|[]]]; reflexivity). rewrite X.
    unfold magnitude. rewrite !nmul_fin, !nadd_fin. replace (1 * 1 + 0 * 0 + 0 * 0) with (1 * 1) by ring. rewrite nsqrt_fin by lra. now rewrite sqrt_square by lra. }
  destruct (H O O 1 1 1 30 (1 / 2)) as [X _]; try lra; try (subst sel; reflexivity).
  - apply (M "1"). cbn; tauto.
  - apply (M "2"). cbn; tauto.
  - rewrite Rmult_1_l. reflexivity.
  - split.
    + rewrite X. do 2 f_equal. unfold factor. change (asked "mass_ratio" ["mass_1"; "chi_eff"]) with false. cbv iota. ring.
    + unfold isotropic_density, sphere. pose proof PI_RGT_0. assert (3 < PI) by (pose proof PI2_3_2; lra).
      assert (Q : 1 / (4 * PI * 1 ^ 2) < 1) by (apply (Rmult_lt_reg_r (4 * PI * 1 ^ 2)); [lra|]; unfold Rdiv; rewrite Rmult_assoc, Rinv_l; lra).
      assert (0 < 1 / (4 * PI * 1 ^ 2)) by (apply Rdiv_lt_0_compat; lra). nra.
Qed.

(** ** C82: chi_p for posteriors.  Requesting it always raises. *)
Theorem C82_chi_p_refuted : forall h5 read choice w c mmax meta kf names, In "chi_p" names -> exists e, load_posterior_dataset h5 read choice w c mmax meta kf names = Err e.
Proof. exact chip_never. Qed.
Print Assumptions C82_chi_p_refuted.
Example C82_case : In "chi_p" ["mass_1"; "chi_eff"; "chi_p"].
Proof. cbn. tauto. Qed.

(** ** C83: resampled injections *)
Theorem C83_resample : forall mp i d ws N choice, weights_are mp i d ws -> 0 < Rlsum ws -> INR (length d) < N ->
  ignores_position mp i -> is_choice choice ->
  exists new k, resample_injections mp d (Fin N) i choice = Ok (new, k, Fin (mc_neff N ws)) /\
    (1 <= k <= length d)%nat /\ length new = k /\
    Forall (fun c' => exists c, In c d /\ length c' = length c /\ (forall j, j <> i -> nth j c' NaN = nth j c NaN) /\
                      ndiv (mp c') (nth i c' NaN) = Fin (mc_mu N ws)) new.
Proof. exact resample_ok. Qed.
Print Assumptions C83_resample.
Example C83_case : weights_are (fun c => nth 0 c NaN) 1 [[Fin 3; Fin 2]; [Fin 0; Fin 5]] [3 / 2; 0 / 5] /\ 0 < Rlsum [3 / 2; 0 / 5] /\ INR 2 < 10 /\ ignores_position (fun c => nth 0 c NaN) 1.
Proof.
  split; [|split; [|split]].
  - repeat constructor; [exists 3, 2|exists 0, 5]; cbn; repeat split; lra.
  - unfold Rlsum. cbn. lra.
  - cbn. lra.
  - intros c c' _ H. apply H. lia.
Qed.

(** ** C97: the observation time, in Julian years, and the number of generated injections *)
Theorem C97_time_and_total : forall w file names o4a o3 ifar snr cuts a,
  load_injection_dataset w (read_injections file names o4a o3 ifar snr cuts) names = Ok a ->
  exists attrs tattrs t, (match file with FileO4a f => attrs = o4a_attrs f /\ tattrs = o4a_attrs f | FileO3 f => attrs = o3_group_attrs f /\ tattrs = o3_attrs f end) /\
    (assoc "analysis_time_s" tattrs = Ok t \/
     (~ In "analysis_time_s" (keys tattrs) /\ assoc "total_analysis_time" tattrs = Ok t) \/
     (~ In "analysis_time_s" (keys tattrs) /\ ~ In "total_analysis_time" (keys tattrs) /\ assoc "analysis_time" tattrs = Ok t)) /\
    (forall s, t = Fin s -> ij_time a = Fin (s / (36525 / 100 * 24 * 60 * 60))) /\
    assoc "total_generated" attrs = Ok (ij_total a).
Proof. exact loaded_time. Qed.
Print Assumptions C97_time_and_total.
(** the hypothesis is met: C73_found_o3 on a concrete file *)
Example C97_case : exists a, read_injections (FileO3 (ex_o3 2 1)) [] false true (Fin 1) (Fin 10) None = Ok a.
Proof.
  destruct (C73_found_o3 1 (ex_o3 2 1) [] (Fin 1) (Fin 10) (Fin 500)) as (sel & a & E & _); [apply ex_o3_good|discriminate|reflexivity|exists "analysis_time_s"; cbn; tauto|].
  exists a. exact E.
Qed.

(** ** C98: which data set of which file each event is read from *)
Theorem C98_reads_each_event : forall h5 meta cat,
  unprocessed_catalog_dict_from_metadata h5 meta = Ok cat <->
  Forall2 (fun m p => fst p = fst m /\ ep_z_prior (snd p) = em_z_prior (snd m) /\ ep_catalog (snd p) = em_catalog (snd m) /\
    (em_catalog (snd m) = "GWTC-1" -> h5 (em_path (snd m)) (em_waveform (snd m) :: nil) = Ok (ep_samples (snd p))) /\
    (em_catalog (snd m) <> "GWTC-1" -> h5 (em_path (snd m)) [em_waveform (snd m); "posterior_samples"] = Ok (ep_samples (snd p)))) meta cat.
Proof. exact catalog_read. Qed.
Print Assumptions C98_reads_each_event.
Theorem C98_error_is_a_missing_dataset : forall h5 meta e,
  unprocessed_catalog_dict_from_metadata h5 meta = Err e ->
  exists m, In m meta /\ (h5 (em_path (snd m)) (em_waveform (snd m) :: nil) = Err e \/ h5 (em_path (snd m)) [em_waveform (snd m); "posterior_samples"] = Err e).
Proof. exact catalog_first_error. Qed.
Print Assumptions C98_error_is_a_missing_dataset.
Example C98_case : unprocessed_catalog_dict_from_metadata (fun p ks => if String.eqb p "f.h5" then Ok (map (fun k => (k, [])) ks) else Err KeyError)
  [("GW1", Meta "f.h5" "wf" "comoving" "GWTC-1"); ("GW2", Meta "f.h5" "wf" "euclidean" "GWTC-3")]
  = Ok [("GW1", Post (("wf", []) :: nil) "comoving" "GWTC-1"); ("GW2", Post [("wf", []); ("posterior_samples", [])] "euclidean" "GWTC-3")].
Proof. reflexivity. Qed.
