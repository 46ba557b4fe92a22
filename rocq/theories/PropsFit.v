(** Property theorems C113, C115 (the example population models from data tables to log-likelihood). *)
From Verif Require Import PFit PPeak PPeakPrior PParametric2.
From Verif Require Import SpecFit SpecPeak.
Open Scope R_scope.
Open Scope string_scope.
Open Scope list_scope.

(** C113; partial: the example's own keywords do not bind (C107), these are keywords that do *)
Theorem C113_log_likelihood_partial : forall keywords draw lamb a d dVcdz v pe inj n events found nm nq na nct nz mmin mmax N,
  binds likelihood_parameters 5 keywords = true -> tables_hold pe inj n events found -> (1 <= nz)%nat -> (forall z, -1 < z -> dVcdz (Fin z) = Fin (v z)) ->
  let p := drawn_population mmin mmax v (z_low events found) (z_high events found) lamb draw nm nq na nct nz in
  fit_ok a n events found N p ->
  exists mass mag tilt zm, example_setup dVcdz pe inj (AInt (Z.of_nat nm)) (AInt (Z.of_nat nq)) (AInt (Z.of_nat na)) (AInt (Z.of_nat nct)) (AInt (Z.of_nat nz)) (Fin mmin) (Fin mmax) = Ok (mass, mag, tilt, zm) /\
    factors (fst (snd (bspline_example_with keywords (fun s i => Fin (draw s i)) (Fin lamb) a d pe inj mass mag tilt zm nm nq na nct nz))) =
    (Site Factor "log_likelihood" (Scal (Fin (log_likelihood a p events found N))) :: nil).
Proof. exact model_fit. Qed.
Print Assumptions C113_log_likelihood_partial.
(** adding a constant to all coefficients of a mass or spin spline does not matter *)
Theorem C113_gauge_partial : forall keywords draw draw' shift lamb a d dVcdz v pe inj n events found nm nq na nct nz mmin mmax N,
  binds likelihood_parameters 5 keywords = true -> tables_hold pe inj n events found -> (1 <= nz)%nat -> (forall z, -1 < z -> dVcdz (Fin z) = Fin (v z)) ->
  let pop draw := drawn_population mmin mmax v (z_low events found) (z_high events found) lamb draw nm nq na nct nz in
  fit_ok a n events found N (pop draw) -> fit_ok a n events found N (pop draw') ->
  (forall site i, draw' site i = draw site i + shift site) -> shift "z_cs" = 0 ->
  forall mass mag tilt zm, example_setup dVcdz pe inj (AInt (Z.of_nat nm)) (AInt (Z.of_nat nq)) (AInt (Z.of_nat na)) (AInt (Z.of_nat nct)) (AInt (Z.of_nat nz)) (Fin mmin) (Fin mmax) = Ok (mass, mag, tilt, zm) ->
  let likelihood draw := factors (fst (snd (bspline_example_with keywords (fun s i => Fin (draw s i)) (Fin lamb) a d pe inj mass mag tilt zm nm nq na nct nz))) in
  likelihood draw' = likelihood draw.
Proof. exact gauge. Qed.
Print Assumptions C113_gauge_partial.
(** nor does the normalisation of the sampling priors, up to a constant *)
Theorem C113_prior_constants_partial : forall keywords draw lamb a d dVcdz v pe inj pe' inj' n events found nm nq na nct nz mmin mmax N c1 c2,
  binds likelihood_parameters 5 keywords = true -> tables_hold pe inj n events found -> tables_hold pe' inj' n (map (map (reprior c1)) events) (map (reprior c2) found) -> 0 < c1 -> 0 < c2 ->
  (1 <= nz)%nat -> (forall z, -1 < z -> dVcdz (Fin z) = Fin (v z)) ->
  fit_ok a n events found N (drawn_population mmin mmax v (z_low events found) (z_high events found) lamb draw nm nq na nct nz) ->
  let setup pe inj := example_setup dVcdz pe inj (AInt (Z.of_nat nm)) (AInt (Z.of_nat nq)) (AInt (Z.of_nat na)) (AInt (Z.of_nat nct)) (AInt (Z.of_nat nz)) (Fin mmin) (Fin mmax) in
  let likelihood pe inj mass mag tilt zm := factors (fst (snd (bspline_example_with keywords (fun s i => Fin (draw s i)) (Fin lamb) a d pe inj mass mag tilt zm nm nq na nct nz))) in
  exists mass mag tilt zm mass' mag' tilt' zm' l, setup pe inj = Ok (mass, mag, tilt, zm) /\ setup pe' inj' = Ok (mass', mag', tilt', zm') /\
    likelihood pe inj mass mag tilt zm = (Site Factor "log_likelihood" (Scal (Fin l)) :: nil) /\
    likelihood pe' inj' mass' mag' tilt' zm' = (Site Factor "log_likelihood" (Scal (Fin (l + INR (length events) * (ln c2 - ln c1)))) :: nil).
Proof. exact prior_constants. Qed.
Print Assumptions C113_prior_constants_partial.
Definition C113_events : list (list binary) := [[SpecFit.Binary 1 1 0 1 0 1 1 2; SpecFit.Binary 5 1 0 1 0 1 (exp 1) 3]].
Definition C113_found : list binary := [SpecFit.Binary 2 1 0 1 0 1 1 2; SpecFit.Binary 5 1 0 1 0 1 (exp 1) 3].
Definition C113_args : hl_args := HL (CFloat (Fin 10)) 1 (Fin 1) None false false [] false true false false false None None None (Fin 3) (Fin 5) (Fin 100) false.
Definition C113_pe : dict arr2 := map (fun cf => (fst cf, Arr2 2 (map (map (fun b => Fin (snd cf b))) C113_events))) columns.
Definition C113_inj : dict (list num) := map (fun cf => (fst cf, map (fun b => Fin (snd cf b)) C113_found)) columns.
Definition C113_pop (x : R) := drawn_population 1 (exp 1) (fun z => z) (z_low C113_events C113_found) (z_high C113_events C113_found) 2 (fun site i => if String.eqb site "z_cs" then INR i else INR i + x) 6 5 4 5 4.
Example C113_case : tables_hold C113_pe C113_inj 2 C113_events C113_found /\ (forall x, -1 <= x -> fit_ok C113_args 2 C113_events C113_found 10 (C113_pop x)).
Proof.
  split.
  - split; [repeat constructor|]. intros c f Hf. cbn [columns In] in Hf. repeat (destruct Hf as [Hf|Hf]; [injection Hf as <- <-; split; reflexivity|]). destruct Hf.
  - intros x HX. assert (E1 : 1 < exp 1) by (pose proof (exp_ineq1 1 ltac:(intros E; lra)); lra).
    assert (ZL : z_low C113_events C113_found = 1).
    { unfold z_low, grid_lo. cbn. rewrite Rmin_left, Rmax_left by lra. reflexivity. }
    assert (ZH : z_high C113_events C113_found = exp 1).
    { unfold z_high, grid_hi. cbn. rewrite Rmax_right, Rmin_left by lra. reflexivity. }
    assert (SO : forall site k w, (4 <= k)%nat -> 1 / 10 ^ 6 <= w / INR (k - 3) -> spline_ok (map (fun i => if String.eqb site "z_cs" then INR i else INR i + x) (seq 0 k)) w).
    { intros site k w Hk HW. unfold spline_ok. rewrite map_length, seq_length. split; auto. split; auto. intros c Hc. apply in_map_iff in Hc as (i & <- & _). pose proof (pos_INR i). unfold FMAX. destruct (String.eqb site "z_cs"); lra. }
    assert (QL : 0 < 1 / exp 1 <= 1/2).
    { split; [apply Rdiv_lt_0_compat; lra|]. apply (Rmult_le_reg_r (exp 1)); [lra|]. unfold Rdiv. rewrite Rmult_assoc, Rinv_l by lra. pose proof (exp_ineq1 1 ltac:(intros E; lra)). lra. }
    split; [|split; [|split; [|split; [|split; [|split]]]]].
    + unfold call_ok. cbn. repeat match goal with |- _ /\ _ => split end; auto; try lia; try discriminate; lra.
    + unfold C113_pop. rewrite ZL, ZH. unfold population_ok, drawn_population. cbn [o_mmin o_mmax o_vol o_zlo o_zhi o_lamb o_m o_q o_a1 o_a2 o_t1 o_t2 o_z]. rewrite ln_exp, ln_1.
      repeat match goal with |- _ /\ _ => split end; try lra; auto; try (apply SO; [lia|]; cbn [Nat.sub INR]; lra); cbn; lia || lra.
    + intros b Hb. cbn in Hb. repeat (destruct Hb as [<-|Hb]; [cbn; lra|]). destruct Hb.
    + intros e He. cbn in He. destruct He as [<-|[]]. eexists. split; [left; reflexivity|]. unfold covered, C113_pop. rewrite ZH. cbn. lra.
    + eexists. split; [left; reflexivity|]. unfold covered, C113_pop. rewrite ZH. cbn. pose proof (exp_ineq1 1 ltac:(intros E; lra)). lra.
    + discriminate.
    + discriminate.
Qed.

(** C115; partial: with keywords that bind (C107) *)
Theorem C115_log_likelihood_partial : forall keywords betaln dVcdz v draw a d pe inj n events found mmin mmax N B1 B2,
  binds likelihood_parameters 5 keywords = true -> tables_hold pe inj n events found -> (forall z, -1 < z -> dVcdz (Fin z) = Fin (v z)) ->
  let k := drawn_peak mmin mmax v (z_low events found) (z_high events found) draw B1 B2 in
  betaln (Fin (k_mu1 k * k_v1 k)) (Fin ((1 - k_mu1 k) * k_v1 k)) = Fin (ln B1) -> betaln (Fin (k_mu2 k * k_v2 k)) (Fin ((1 - k_mu2 k) * k_v2 k)) = Fin (ln B2) ->
  peak_fit_ok a n events found N k ->
  exists zm, peak_setup dVcdz pe inj = Ok zm /\
    factors (fst (peak_example_with betaln dVcdz (fun s => Fin (draw s)) zm (Fin mmin) (Fin mmax) keywords a d pe inj)) =
    (Site Factor "log_likelihood" (Scal (Fin (log_likelihood_of a (peak_pdf_over_prior k) events found N))) :: nil).
Proof. exact peak_fit. Qed.
Print Assumptions C115_log_likelihood_partial.
Theorem C115_prior_constants_partial : forall keywords betaln dVcdz v draw a d pe inj pe' inj' n events found mmin mmax N B1 B2 c1 c2,
  binds likelihood_parameters 5 keywords = true -> tables_hold pe inj n events found -> tables_hold pe' inj' n (map (map (reprior c1)) events) (map (reprior c2) found) -> 0 < c1 -> 0 < c2 ->
  (forall z, -1 < z -> dVcdz (Fin z) = Fin (v z)) ->
  let k := drawn_peak mmin mmax v (z_low events found) (z_high events found) draw B1 B2 in
  betaln (Fin (k_mu1 k * k_v1 k)) (Fin ((1 - k_mu1 k) * k_v1 k)) = Fin (ln B1) -> betaln (Fin (k_mu2 k * k_v2 k)) (Fin ((1 - k_mu2 k) * k_v2 k)) = Fin (ln B2) ->
  peak_fit_ok a n events found N k ->
  let likelihood pe inj zm := factors (fst (peak_example_with betaln dVcdz (fun s => Fin (draw s)) zm (Fin mmin) (Fin mmax) keywords a d pe inj)) in
  exists zm zm' l, peak_setup dVcdz pe inj = Ok zm /\ peak_setup dVcdz pe' inj' = Ok zm' /\
    likelihood pe inj zm = (Site Factor "log_likelihood" (Scal (Fin l)) :: nil) /\
    likelihood pe' inj' zm' = (Site Factor "log_likelihood" (Scal (Fin (l + INR (length events) * (ln c2 - ln c1)))) :: nil).
Proof. exact peak_prior_constants. Qed.
Print Assumptions C115_prior_constants_partial.
(** the shapes recorded for each spin are those of the densities above, whether or not the likelihood is reached *)
Theorem C115_recorded_shapes : forall keywords betaln dVcdz draw zm a d pe inj mmin mmax mu v alpha beta,
  In (mu, v, alpha, beta) [("mu_a1", "var_a1", "alpha_a1", "beta_a1"); ("mu_a2", "var_a2", "alpha_a2", "beta_a2")] ->
  let trace := fst (peak_example_with betaln dVcdz (fun s => Fin (draw s)) zm mmin mmax keywords a d pe inj) in
  In (Site Sample mu (Scal (Fin (draw mu)))) trace /\ In (Site Sample v (Scal (Fin (draw v)))) trace /\
  In (Site Deterministic alpha (Scal (Fin (draw mu * draw v)))) trace /\ In (Site Deterministic beta (Scal (Fin ((1 - draw mu) * draw v)))) trace.
Proof. exact recorded_shapes. Qed.
Print Assumptions C115_recorded_shapes.
(** a sample with a spin of exactly zero has infinite weight when the mean times the sampled "variance" is below one *)
Theorem C115_zero_spin_refuted : forall betaln dVcdz v draw pe inj n events found mmin mmax B1 B2 b,
  tables_hold pe inj n events found -> (0 < n)%nat -> events <> [] -> found <> [] -> (forall z, -1 < z -> dVcdz (Fin z) = Fin (v z)) ->
  let k := drawn_peak mmin mmax v (z_low events found) (z_high events found) draw B1 B2 in
  betaln (Fin (k_mu1 k * k_v1 k)) (Fin ((1 - k_mu1 k) * k_v1 k)) = Fin (ln B1) -> betaln (Fin (k_mu2 k * k_v2 k)) (Fin ((1 - k_mu2 k) * k_v2 k)) = Fin (ln B2) ->
  peak_ok k -> k_mu1 k * k_v1 k < 1 -> physical k (with_spin (1/2) b) -> peak_covers k b ->
  exists zm, peak_setup dVcdz pe inj = Ok zm /\ get_weight betaln dVcdz (fun s => Fin (draw s)) zm (Fin mmin) (Fin mmax) (row (with_spin 0 b)) = PInf.
Proof. exact zero_spin_weight. Qed.
Print Assumptions C115_zero_spin_refuted.
Definition C115_events : list (list binary) := [[SpecFit.Binary 10 1 (1/2) (1/3) 0 1 1 2; SpecFit.Binary 60 (1/2) (1/2) (1/3) 0 1 2 3]].
Definition C115_found : list binary := [SpecFit.Binary 4 1 (1/4) (1/5) 0 (-1) 1 2; SpecFit.Binary 50 (1/10) (1/2) (1/3) 0 1 2 3].
Definition C115_pe : dict arr2 := map (fun cf => (fst cf, Arr2 2 (map (map (fun b => Fin (snd cf b))) C115_events))) columns.
Definition C115_inj : dict (list num) := map (fun cf => (fst cf, map (fun b => Fin (snd cf b)) C115_found)) columns.
Definition C115_draw (s : string) : R :=
  if String.eqb s "mu_a1" || String.eqb s "mu_a2" then 1/3 else if String.eqb s "var_a1" || String.eqb s "var_a2" then 3/2 else
  if String.eqb s "alpha" then -2 else if String.eqb s "beta" then 1 else if String.eqb s "mu_peak" then 35 else 1/2.
Definition C115_pop : peak := drawn_peak 5 50 (fun z => z) (z_low C115_events C115_found) (z_high C115_events C115_found) C115_draw 2 2.
Example C115_prior_case : exists pe' inj', tables_hold pe' inj' 2 (map (map (reprior 3)) C115_events) (map (reprior (1/2)) C115_found).
Proof.
  exists (map (fun cf => (fst cf, Arr2 2 (map (map (fun b => Fin (snd cf b))) (map (map (reprior 3)) C115_events)))) columns), (map (fun cf => (fst cf, map (fun b => Fin (snd cf b)) (map (reprior (1/2)) C115_found))) columns).
  split; [repeat constructor|]. intros c f Hf. cbn [columns In] in Hf. repeat (destruct Hf as [Hf|Hf]; [injection Hf as <- <-; split; reflexivity|]). destruct Hf.
Qed.
Example C115_case : tables_hold C115_pe C115_inj 2 C115_events C115_found /\ peak_fit_ok C113_args 2 C115_events C115_found 10 C115_pop /\
  k_mu1 C115_pop * k_v1 C115_pop < 1 /\ physical C115_pop (with_spin (1/2) (SpecFit.Binary 10 1 0 (1/3) 0 1 1 2)) /\ peak_covers C115_pop (SpecFit.Binary 10 1 0 (1/3) 0 1 1 2).
Proof.
  assert (ZL : z_low C115_events C115_found = 1) by (unfold z_low, grid_lo; cbn; rewrite Rmin_left, Rmax_left by lra; reflexivity).
  assert (ZH : z_high C115_events C115_found = 2) by (unfold z_high, grid_hi; cbn; rewrite Rmax_right, Rmin_left by lra; reflexivity).
  unfold C115_pop. rewrite ZL, ZH.
  refine (conj _ (conj (conj _ (conj _ (conj _ (conj _ (conj _ _))))) (conj _ (conj _ _)))).
  - split; [repeat constructor|]. intros c f Hf. cbn [columns In] in Hf. repeat (destruct Hf as [Hf|Hf]; [injection Hf as <- <-; split; reflexivity|]). destruct Hf.
  - unfold call_ok. cbn. repeat match goal with |- _ /\ _ => split end; auto; try lia; try discriminate; lra.
  - unfold peak_ok. cbn. replace (1 / 3 * (3 / 2)) with (1/2) by lra. replace ((1 - 1 / 3) * (3 / 2)) with 1 by lra. pose proof beta_integral_open_half.
    repeat match goal with |- (_ < _ < _) => split | |- (_ <= _ <= _) => split | |- beta_integral_open _ _ _ => assumption | |- _ /\ _ => split end; try lra; auto.
  - intros b Hb. cbn in Hb. repeat (destruct Hb as [<-|Hb]; [unfold physical; cbn; repeat match goal with |- _ /\ _ => split end; try lra; intros [? ?]; lra|]). destruct Hb.
  - intros e He. cbn in He. destruct He as [<-|[]]. eexists. split; [left; reflexivity|]. unfold peak_covers. cbn. lra.
  - eexists. split; [right; left; reflexivity|]. unfold peak_covers. cbn. lra.
  - unfold cuts_pass. cbn [min_neff_cut max_variance_cut C113_args]. split; intros K; discriminate K.
  - cbn. lra.
  - unfold physical. cbn. repeat match goal with |- _ /\ _ => split end; try lra; intros [? ?]; lra.
  - unfold peak_covers. cbn. lra.
Qed.
