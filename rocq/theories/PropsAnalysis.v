(** Property theorems C55-C65, C90, C114 (gwinferno/pipeline/analysis.py). *)
From Coq Require Import Permutation.
From Verif Require Import PAnalysisFrac PAnalysisCat PAnalysisInt SpecAnalysis.
Open Scope R_scope.
Open Scope string_scope.
Open Scope list_scope.

(** C55 *)
Theorem C55_bayes_factor_modes_agree : forall n rows, Forall (fun ws => length ws = n /\ nonneg_list ws) rows ->
  per_event_log_bayes_factors true (Arr2 n (map (enc true) rows)) = per_event_log_bayes_factors false (Arr2 n (map (enc false) rows)).
Proof. exact bf_modes. Qed.
Print Assumptions C55_bayes_factor_modes_agree.
Example C55_case : Forall (fun ws => length ws = 2%nat /\ nonneg_list ws) [[0; 3]; [1; 2]; [0; 0]].
Proof. repeat constructor; lra. Qed.

(** C56 *)
Theorem C56_effective_sizes_in_range : forall log n rows, (0 < n)%nat -> Forall (fun ws => length ws = n /\ nonneg_list ws /\ 0 < Rlsum ws) rows ->
  exists lbf lne var,
    per_event_log_bayes_factors log (Arr2 n (map (enc log) rows)) = Ok (map Fin lbf, map Fin lne, map Fin var) /\
    Forall2 (fun ws b => exp b = mean ws) rows lbf /\
    Forall2 (fun ws x => exp x = ess ws /\ 1 <= exp x <= INR n) rows lne /\
    Forall2 (fun ws v => v = / ess ws - / INR n /\ 0 <= v /\ (v = 0 <-> forall a b, In a ws -> In b ws -> a = b)) rows var.
Proof. exact bf_range. Qed.
Print Assumptions C56_effective_sizes_in_range.
Theorem C56_rescaling : forall log n rows c, (0 < n)%nat -> 0 < c -> Forall (fun ws => length ws = n /\ nonneg_list ws /\ 0 < Rlsum ws) rows ->
  exists lbf lne var,
    per_event_log_bayes_factors log (Arr2 n (map (enc log) rows)) = Ok (map Fin lbf, map Fin lne, map Fin var) /\
    per_event_log_bayes_factors log (Arr2 n (map (enc log) (map (map (fun w => c * w)) rows))) =
      Ok (map Fin (map (fun b => ln c + b) lbf), map Fin lne, map Fin var).
Proof. exact bf_scale. Qed.
Print Assumptions C56_rescaling.
Example C56_case : Forall (fun ws => length ws = 2%nat /\ nonneg_list ws /\ 0 < Rlsum ws) [[0; 3]; [1; 2]].
Proof. repeat constructor; cbn; lra. Qed.

(** C57 *)
Theorem C57_detection_efficiency_modes_agree : forall ws c N, nonneg_list ws -> count_pos c N ->
  detection_efficiency true (enc true ws) c = detection_efficiency false (enc false ws) c.
Proof. exact de_modes. Qed.
Print Assumptions C57_detection_efficiency_modes_agree.
Theorem C57_detection_efficiency_value : forall log ws c N, nonneg_list ws -> count_pos c N ->
  exists x y, detection_efficiency log (enc log ws) c = Ok (nlog (Fin (mc_mu N ws)), x, y).
Proof. exact de_logmu. Qed.
Print Assumptions C57_detection_efficiency_value.
Example C57_case : nonneg_list [0; 3] /\ count_pos (CInt 65536) 65536 /\ count_pos (CFloat (Fin (1/2))) (1/2).
Proof. split; [repeat constructor; lra|]. split; [left; exists 65536%Z; repeat split; lia|right; split; [reflexivity|lra]]. Qed.

(** C58: the third output is the variance of the log-efficiency estimate minus 1/Ninj, so it is bounded below by
    -1/Ninj only, and it is negative for some inputs. *)
Theorem C58_efficiency_variance_partial : forall log ws N, nonneg_list ws -> 0 < Rlsum ws -> INR (length ws) < N ->
  exists mu ne v, detection_efficiency log (enc log ws) (CFloat (Fin N)) = Ok (Fin mu, Fin ne, Fin v) /\
    exp ne = mc_neff N ws /\ 0 < exp ne /\ v + / N = mc_var N ws / mc_mu N ws ^ 2 /\ 0 <= v + / N.
Proof. exact de_variance_partial. Qed.
Print Assumptions C58_efficiency_variance_partial.
Theorem C58_efficiency_variance_refuted : exists ws N mu ne v, nonneg_list ws /\ 0 < Rlsum ws /\ INR (length ws) < N /\
  detection_efficiency false (enc false ws) (CFloat (Fin N)) = Ok (mu, ne, Fin v) /\ v < 0.
Proof. exact de_variance_negative. Qed.
Print Assumptions C58_efficiency_variance_refuted.
Example C58_case : nonneg_list [0; 3] /\ 0 < Rlsum [0; 3] /\ INR (length [0; 3]) < 10.
Proof. split; [repeat constructor; lra|]. cbn. lra. Qed.

(** C59 *)
Theorem C59_likelihood_always_finite : forall a d pe inj,
  (exists x, factors (fst (hierarchical_likelihood a d pe inj)) = (Site Factor "log_likelihood" (Scal (Fin x)) :: nil)) \/
  (factors (fst (hierarchical_likelihood a d pe inj)) = [] /\ exists e, snd (hierarchical_likelihood a d pe inj) = Err e).
Proof. exact hl_factors_finite. Qed.
Print Assumptions C59_likelihood_always_finite.

(** C60 *)
Theorem C60_likelihood_value : forall a d n N rows inj, value_hyps a n N rows inj ->
  (min_neff_cut a = true -> 4 * INR (Nobs a) <= mc_neff N inj /\ forall ws, In ws rows -> INR (Nobs a) < ess ws) ->
  (max_variance_cut a = true -> INR (Nobs a) ^ 2 * (/ mc_neff N inj - / N) + Rlsum (map (fun ws => / ess ws - / INR n) rows) <= 1) ->
  factors (fst (hierarchical_likelihood a d (PEOne (Arr2 n (map (enc (logw a)) rows))) (enc (logw a) inj))) =
  (Site Factor "log_likelihood" (Scal (Fin (
     Rlsum (map (fun ws => ln (mean ws)) rows) - INR (Nobs a) * ln (mc_mu N inj)
     + (if marginalize_selection a then INR (Nobs a) * (3 + INR (Nobs a)) / (2 * mc_neff N inj) else 0)))) :: nil).
Proof. exact hl_value. Qed.
Print Assumptions C60_likelihood_value.
Theorem C60_rescaling : forall a d n N rows inj c, 0 < c -> value_hyps a n N rows inj ->
  (min_neff_cut a = true -> 4 * INR (Nobs a) <= mc_neff N inj) ->
  factors (fst (hierarchical_likelihood a d (PEOne (Arr2 n (map (enc (logw a)) (map (map (fun w => c * w)) rows)))) (enc (logw a) (map (fun w => c * w) inj)))) =
  factors (fst (hierarchical_likelihood a d (PEOne (Arr2 n (map (enc (logw a)) rows))) (enc (logw a) inj))).
Proof. exact hl_rescale. Qed.
Print Assumptions C60_rescaling.
Theorem C60_permutation : forall a d n rows rows' inj inj', categorical a = false -> same_weights rows rows' -> Permutation inj inj' ->
  factors (fst (hierarchical_likelihood a d (PEOne (Arr2 n rows)) inj)) =
  factors (fst (hierarchical_likelihood a d (PEOne (Arr2 n rows')) inj')).
Proof. exact hl_perm. Qed.
Print Assumptions C60_permutation.
Definition C60_args (marg : bool) : hl_args :=
  HL (CFloat (Fin 10)) 2 (Fin 1) None false false [] false marg false false false None None None (Fin 3) (Fin 5) (Fin 100) true.
Example C60_case : forall marg, value_hyps (C60_args marg) 2 10 [[0; 3]; [1; 2]] [1; 0; 4].
Proof.
  intros marg. unfold value_hyps, good_rows. rows_ok.
Qed.
Example C60_perm_case : same_weights [[Fin 1; NaN]; [PInf; Fin 2]] [[Fin 2; PInf]; [Fin 1; NaN]].
Proof. exists [[PInf; Fin 2]; [Fin 1; NaN]]. split; [apply perm_swap|]. repeat constructor. Qed.

(** C61 *)
Theorem C61_injection_cut : forall a d pe inj sites l le b, run a d pe inj sites l -> (1 <= Nobs a)%nat -> min_neff_cut a = true ->
  In (Site Deterministic "log_nEff_inj" (Scal le)) sites -> In (Site Deterministic "sum_logBFs" (Scal b)) sites ->
  nle (nlog (Fin (4 * INR (Nobs a)))) le = false ->
  l = Fin (- FMAX) \/ exists r, b = Fin r /\ l = Fin (- FMAX + r).
Proof. exact cut_injections. Qed.
Print Assumptions C61_injection_cut.
Theorem C61_event_cut : forall a d pe inj sites l E x, run a d pe inj sites l -> (1 <= Nobs a)%nat -> min_neff_cut a = true ->
  In (Site Deterministic "log_nEffs" (Vec E)) sites -> In x E -> nlt (Fin (INR (Nobs a))) (nexp x) = false ->
  l = Fin (- FMAX).
Proof. exact cut_events. Qed.
Print Assumptions C61_event_cut.
Theorem C61_variance_cut : forall a d pe inj sites l v, run a d pe inj sites l -> max_variance_cut a = true ->
  In (Site Deterministic "variance_log_likelihood" (Scal v)) sites -> nle v (Fin 1) = false -> l = Fin (- FMAX).
Proof. exact cut_variance. Qed.
Print Assumptions C61_variance_cut.
Theorem C61_untouched : forall a d pe inj sites l E le v, run a d pe inj sites l -> (1 <= Nobs a)%nat -> INR (Nobs a) < exp FMAX ->
  In (Site Deterministic "log_nEffs" (Vec E)) sites -> In (Site Deterministic "log_nEff_inj" (Scal le)) sites ->
  In (Site Deterministic "variance_log_likelihood" (Scal v)) sites ->
  (min_neff_cut a = true -> nle (nlog (Fin (4 * INR (Nobs a)))) le = true /\ forall x, In x E -> nlt (Fin (INR (Nobs a))) (nexp x) = true) ->
  (max_variance_cut a = true -> nle v (Fin 1) = true) ->
  exists sites', run (without_cuts a) d pe inj sites' l.
Proof. exact cut_passed. Qed.
Print Assumptions C61_untouched.
(** an evaluation that passes the variance cut: equal weights in the single event, two equal injections *)
Definition C61_args : hl_args :=
  HL (CFloat (Fin 10)) 1 (Fin 1) None false false [] false false false true false None None None (Fin 3) (Fin 5) (Fin 100) false.
Example C61_case : exists sites l, run C61_args (Draws [] (Fin 1) (fun _ => Fin 0) (fun _ => Fin 0)) (PEOne (Arr2 2 (map (map Fin) [[1; 1]]))) (map Fin [1; 1]) sites l.
Proof.
  set (d := Draws _ _ _ _).
  destruct (C59_likelihood_always_finite C61_args d (PEOne (Arr2 2 (map (map Fin) [[1; 1]]))) (map Fin [1; 1])) as [[x H]|[H _]].
  - exists (fst (hierarchical_likelihood C61_args d (PEOne (Arr2 2 (map (map Fin) [[1; 1]]))) (map Fin [1; 1]))), (Fin x). split; [reflexivity|].
    assert (K : In (Site Factor "log_likelihood" (Scal (Fin x))) (factors (fst (hierarchical_likelihood C61_args d (PEOne (Arr2 2 (map (map Fin) [[1; 1]]))) (map Fin [1; 1]))))) by (rewrite H; left; reflexivity).
    apply filter_In in K. tauto.
  - exfalso. pose proof (C60_likelihood_value C61_args d 2 10 [[1; 1]] [1; 1]) as G. cbn [C61_args logw enc map] in G, H.
    rewrite G in H; [discriminate H| |discriminate|].
    + unfold value_hyps, good_rows. rows_ok.
    + intros _. unfold mc_neff, mc_mu, mc_var, mc_mu, ess, sumsq. cbn. lra.
Qed.

(** C62 *)
Theorem C62_contradictory_flags : forall a d pe inj,
  hierarchical_likelihood a d pe inj = ([], Err ValueError) <->
  max_variance_cut a = true /\ (marginalize_selection a = true \/ min_neff_cut a = true).
Proof. exact hl_flags. Qed.
Print Assumptions C62_contradictory_flags.

(** C63 *)
Theorem C63_names_distinct : forall a d pe inj, (forall ps, param_names a = Some ps -> NoDup ps) ->
  NoDup (names (fst (hierarchical_likelihood a d pe inj))).
Proof. exact hl_names. Qed.
Print Assumptions C63_names_distinct.
Theorem C63_rate : forall a d pe inj sites r vt u t mu lm le v,
  hierarchical_likelihood a d pe inj = (sites, Ok r) -> reconstruct_rate a = true ->
  surveyed_hypervolume a = Some (Fin vt) -> Tobs a = Fin t -> d_rate d = Fin u -> vt * t <> 0 -> 0 < mu ->
  detection_efficiency (logw a) inj (total_inj a) = Ok (lm, le, v) -> nexp lm = Fin mu ->
  exists rate, r = Some (Fin rate) /\
    In (Site Deterministic "rate" (Scal (Fin rate))) sites /\
    In (Site Deterministic "detection_efficiency" (Scal (Fin mu))) sites /\
    In (Site Deterministic "surveyed_hypervolume" (Scal (Fin (vt / 10 ^ 9 * t)))) sites /\
    In (Site Sample "unscaled_rate" (Scal (Fin u))) sites /\
    rate * mu * (vt / 10 ^ 9 * t) = u.
Proof. exact hl_rate. Qed.
Print Assumptions C63_rate.
Example C63_case : NoDup ["mass_1"; "mass_ratio"; "redshift"].
Proof. repeat constructor; cbn; intuition discriminate. Qed.

(** C64: as long as some sample of the event, and some injection, of positive weight passes the cuts. *)
Theorem C64_predictive_draws_partial : forall s r a d n rows m1 q iws im1 iq c1 c2 cm ps pe ij,
  ppc_data a n rows m1 q iws im1 iq c1 c2 cm ps pe ij -> posterior_predictive_check a = true ->
  hierarchical_likelihood a d (PEOne (Arr2 n (map (enc (logw a)) rows))) (enc (logw a) iws) = (s, Ok r) ->
  forall ev u v, (ev < Nobs a)%nat -> d_obs d ev = Fin u -> d_pred d ev = Fin v -> 0 <= u < 1 -> 0 <= v < 1 ->
  (exists j, (j < n)%nat /\ 0 < nth j (nth ev rows []) 0 /\ passes c1 c2 cm (nth j (nth ev m1 []) 0) (nth j (nth ev q []) 0)) ->
  (exists k, (k < length iws)%nat /\ 0 < nth k iws 0 /\ passes c1 c2 cm (nth k im1 0) (nth k iq 0)) ->
  exists j k, (j < n)%nat /\ passes c1 c2 cm (nth j (nth ev m1 []) 0) (nth j (nth ev q []) 0) /\
    (k < length iws)%nat /\ passes c1 c2 cm (nth k im1 0) (nth k iq 0) /\
    (forall vs, kept_weights c1 c2 cm (nth ev rows []) (nth ev m1 []) (nth ev q []) vs -> inverse_cdf vs u j) /\
    (forall vs, kept_weights c1 c2 cm iws im1 iq vs -> inverse_cdf vs v k) /\
    forall p, In p ps -> exists pv iv, assoc p pe = Ok pv /\ assoc p ij = Ok iv /\
      In (Site Deterministic (p ++ "_obs_event_" ++ dec ev)%string (Scal (get2 pv ev j))) s /\
      In (Site Deterministic (p ++ "_pred_event_" ++ dec ev)%string (Scal (get1 iv k))) s.
Proof. exact hl_ppc. Qed.
Print Assumptions C64_predictive_draws_partial.
(** an event whose only sample has mass_1 = 1 below m1min = 5 still has mass_1 = 1 recorded as its draw *)
Theorem C64_predictive_draws_refuted : forall d, exists s r,
  hierarchical_likelihood ppc_bad_args d (PEOne (Arr2 1 ((Fin 1 :: nil) :: nil))) (Fin 1 :: nil) = (s, Ok r) /\
  In (Site Deterministic "mass_1_obs_event_0" (Scal (Fin 1))) s /\ m1min ppc_bad_args = Fin 5.
Proof. exact ppc_uncut_draw. Qed.
Print Assumptions C64_predictive_draws_refuted.
Definition C64_pe := [("mass_1", Arr2 2 (map (map Fin) [[1; 20]])); ("mass_ratio", Arr2 2 (map (map Fin) [[1; 1/2]]))].
Definition C64_ij := [("mass_1", map Fin [30; 2]); ("mass_ratio", map Fin [1/2; 1])].
Example C64_case : ppc_data
  (HL (CFloat (Fin 10)) 1 (Fin 1) None false false [] false false false false true (Some ["mass_1"; "mass_ratio"])
      (Some C64_pe) (Some C64_ij) (Fin 3) (Fin 5) (Fin 100) false)
  2 [[1; 2]] [[1; 20]] [[1; 1/2]] [3; 4] [30; 2] [1/2; 1] 5 3 100 ["mass_1"; "mass_ratio"] C64_pe C64_ij /\
  passes 5 3 100 20 (1/2) /\ passes 5 3 100 30 (1/2).
Proof.
  split; [|unfold passes; lra].
  unfold ppc_data. cbn [param_names pedata injdata m1min m2min mmax Nobs]. repeat split; try reflexivity; repeat constructor; lra.
Qed.

(** C65: right for two sub-populations; with more, every sub-population but the first is read as the second. *)
Theorem C65_categorical_partial : forall a d w0 w1 inj sites l B, categorical a = true -> run a d (PEMany [w0; w1]) inj sites l ->
  length (d_qs d) = length (a_rows w0) -> length (a_rows w1) = length (a_rows w0) -> a_cols w1 = a_cols w0 ->
  Forall (fun q => (q < 2)%nat) (d_qs d) -> In (Site Deterministic "logBFs" (Vec B)) sites ->
  exists E V, per_event_log_bayes_factors (logw a)
    (Arr2 (a_cols w0) (map (fun i => nth i (a_rows (nth (nth i (d_qs d) O) [w0; w1] w0)) []) (seq 0 (length (d_qs d))))) = Ok (B, E, V).
Proof. exact hl_categorical_sites. Qed.
Print Assumptions C65_categorical_partial.
Theorem C65_categorical_refuted : exists a d ws inj sites l B, categorical a = true /\ length ws = 3%nat /\ d_qs d = (2%nat :: nil) /\
  run a d (PEMany ws) inj sites l /\ In (Site Deterministic "logBFs" (Vec B)) sites /\
  forall w2, nth_error ws 2 = Some w2 -> forall E V, per_event_log_bayes_factors (logw a) w2 <> Ok (B, E, V).
Proof. exact hl_categorical_sites_3. Qed.
Print Assumptions C65_categorical_refuted.
(** whichever later sub-population is drawn, and whatever its weights: the likelihood is that of the second *)
Theorem C65_later_subpopulations_refuted : forall a d w0 w1 rest rest' inj qs', categorical a = true -> Forall2 (fun q q' => q = O <-> q' = O) (d_qs d) qs' ->
  let d' := Draws qs' (d_rate d) (d_obs d) (d_pred d) in
  factors (fst (hierarchical_likelihood a d (PEMany (w0 :: w1 :: rest)) inj)) = factors (fst (hierarchical_likelihood a d' (PEMany (w0 :: w1 :: rest')) inj)) /\
  snd (hierarchical_likelihood a d (PEMany (w0 :: w1 :: rest)) inj) = snd (hierarchical_likelihood a d' (PEMany (w0 :: w1 :: rest')) inj).
Proof. exact hl_categorical_later. Qed.
Print Assumptions C65_later_subpopulations_refuted.
Example C65_case : Forall (fun q => (q < 2)%nat) [0; 1; 1; 0]%nat /\ Forall2 (fun q q' => q = O <-> q' = O) [0; 2; 3; 0]%nat [0; 1; 1; 0]%nat.
Proof. split; repeat constructor; discriminate. Qed.

(** C90 *)
Theorem C90_integer_count_partial : forall log ws z, (0 <= z <= 46340)%Z ->
  detection_efficiency log ws (CInt z) = detection_efficiency log ws (CFloat (Fin (IZR z))).
Proof. exact de_int. Qed.
Print Assumptions C90_integer_count_partial.
Theorem C90_integer_count_refuted : exists ws z, nonneg_list ws /\ 0 < Rlsum ws /\ INR (length ws) < IZR z /\ (0 < z < 2 ^ 31)%Z /\
  exists mu ne v, detection_efficiency false (enc false ws) (CFloat (Fin (IZR z))) = Ok (mu, Fin ne, v) /\
  detection_efficiency false (enc false ws) (CInt z) = Ok (mu, NInf, PInf).
Proof. exact de_int_wrap. Qed.
Print Assumptions C90_integer_count_refuted.
(** 46340 is the exact limit, whatever the weights *)
Theorem C90_exactly_when : forall log ws z, nonneg_list ws -> 0 < Rlsum ws -> INR (length ws) < IZR z -> (0 < z < 2 ^ 31)%Z ->
  (detection_efficiency log (enc log ws) (CInt z) = detection_efficiency log (enc log ws) (CFloat (Fin (IZR z))) <-> (z <= 46340)%Z).
Proof. exact int_exactly. Qed.
Print Assumptions C90_exactly_when.
Example C90_exactly_case : nonneg_list [1; 0; 2] /\ 0 < Rlsum [1; 0; 2] /\ INR (length [1; 0; 2]) < IZR 100000 /\ (0 < 100000 < 2 ^ 31)%Z.
Proof. split; [repeat constructor; lra|]. split; [cbn; lra|]. split; [cbn; lra|lia]. Qed.

(** C114: the fraction recorded for each sub-population is its share of the weight of the recorded sample. *)
Theorem C114_fractions_partial : forall s r a d n rows m1 q iws im1 iq c1 c2 cm ps pe ij subs,
  ppc_data a n rows m1 q iws im1 iq c1 c2 cm ps pe ij -> posterior_predictive_check a = true -> marginal_qs a = true ->
  hierarchical_likelihood a d (PEOne (Arr2 n (map (enc (logw a)) rows))) (enc (logw a) iws) = (s, Ok r) ->
  sub_weights (Nobs a) n rows subs -> indv_weights a = map (fun w => Arr2 n (map (map Fin) w)) subs ->
  forall ev u, (ev < Nobs a)%nat -> d_obs d ev = Fin u -> 0 <= u < 1 ->
  (exists j, (j < n)%nat /\ 0 < nth j (nth ev rows []) 0 /\ passes c1 c2 cm (nth j (nth ev m1 []) 0) (nth j (nth ev q []) 0)) ->
  exists j fs, (j < n)%nat /\ (forall vs, kept_weights c1 c2 cm (nth ev rows []) (nth ev m1 []) (nth ev q []) vs -> inverse_cdf vs u j) /\
    (forall p, In p ps -> exists pv, assoc p pe = Ok pv /\
      In (Site Deterministic (p ++ "_obs_event_" ++ dec ev)%string (Scal (get2 pv ev j))) s) /\
    length fs = length subs /\ Forall (fun f => 0 <= f <= 1) fs /\ Rlsum fs = 1 /\
    forall i, (i < length subs)%nat ->
      nth i fs 0 = nth j (nth ev (nth i subs []) []) 0 / nth j (nth ev rows []) 0 /\
      In (Site Deterministic ("cat_frac_subpop_" ++ dec (S i) ++ "_event_" ++ dec ev)%string (Scal (Fin (nth i fs 0)))) s.
Proof. exact hl_fractions. Qed.
Print Assumptions C114_fractions_partial.
(** with log=True and log weights of the sub-populations the recorded fractions are negative as soon as those weights are below one *)
Theorem C114_log_fractions_refuted : forall s r a d n rows m1 q iws im1 iq c1 c2 cm ps pe ij subs,
  ppc_data a n rows m1 q iws im1 iq c1 c2 cm ps pe ij -> posterior_predictive_check a = true -> marginal_qs a = true ->
  hierarchical_likelihood a d (PEOne (Arr2 n (map (enc (logw a)) rows))) (enc (logw a) iws) = (s, Ok r) ->
  sub_weights (Nobs a) n rows subs -> logw a = true -> indv_weights a = map (fun w => Arr2 n (map (enc true) w)) subs ->
  Forall (Forall (Forall (fun w => 0 < w < 1))) subs ->
  forall ev u, (ev < Nobs a)%nat -> d_obs d ev = Fin u -> 0 <= u < 1 ->
  (exists j, (j < n)%nat /\ 0 < nth j (nth ev rows []) 0 /\ passes c1 c2 cm (nth j (nth ev m1 []) 0) (nth j (nth ev q []) 0)) ->
  forall i, (i < length subs)%nat -> exists f, f < 0 /\
    In (Site Deterministic ("cat_frac_subpop_" ++ dec (S i) ++ "_event_" ++ dec ev)%string (Scal (Fin f))) s.
Proof. exact hl_log_fractions. Qed.
Print Assumptions C114_log_fractions_refuted.
(** two sub-populations of two samples each *)
Example C114_case : sub_weights 1 2 [[1/2; 3/4]] [[[1/4; 1/2]]; [[1/4; 1/4]]] /\ Forall (Forall (Forall (fun w => 0 < w < 1))) [[[1/4; 1/2]]; [[1/4; 1/4]]] /\
  ppc_data (HL (CFloat (Fin 10)) 1 (Fin 1) None false true (map (fun w => Arr2 2 (map (map Fin) w)) [[[1/4; 1/2]]; [[1/4; 1/4]]])
      false false false false true (Some ["mass_1"; "mass_ratio"]) (Some C64_pe) (Some C64_ij) (Fin 3) (Fin 5) (Fin 100) false)
  2 [[1/2; 3/4]] [[1; 20]] [[1; 1/2]] [3; 4] [30; 2] [1/2; 1] 5 3 100 ["mass_1"; "mass_ratio"] C64_pe C64_ij.
Proof.
  split; [|split].
  - split; [repeat constructor; lra|]. intros [|ev] [|[|j]] H1 H2; try lia; cbn; lra.
  - repeat constructor; lra.
  - unfold ppc_data. cbn [param_names pedata injdata m1min m2min mmax Nobs]. repeat split; try reflexivity; repeat constructor; lra.
Qed.
