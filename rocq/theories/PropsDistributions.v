(** Property theorems C01-C07 (gwinferno/distributions.py). *)
From Verif Require Import PDistributions PParametric PParametric2.
Open Scope R_scope.

(** C01 *)
Theorem C01_powerlaw_normalised : forall alpha low high floor, 0 < low < high ->
  density_on (fun x => powerlaw_pdf (Fin x) (Fin alpha) (Fin low) (Fin high) floor) low high /\
  proportional_on (fun x => powerlaw_pdf (Fin x) (Fin alpha) (Fin low) (Fin high) floor)
    (fun x => Rpower x alpha) low high.
Proof. exact (fun a l h f H => conj (powerlaw_pdf_density a l h f H) (powerlaw_shape a l h f H)). Qed.
Print Assumptions C01_powerlaw_normalised.
Example C01_case : 0 < 5 < 100. Proof. lra. Qed.
Example C01_special_index : exists p, powerlaw_pdf (Fin 5) (Fin (-1)) (Fin 5) (Fin 100) (Fin 0) = Fin p /\ p > 0.
Proof.
  destruct (powerlaw_shape (-1) 5 100 (Fin 0)) as (c & Hc & H); [lra|].
  exists (c * Rpower 5 (-1)). split; [apply H; lra|]. apply Rmult_lt_0_compat; [lra|apply Rpower_pos].
Qed.

(** C02 *)
Theorem C02_powerlaw_floor : forall x alpha low high floor : num,
  (nlt x low = true \/ nlt high x = true -> powerlaw_pdf x alpha low high floor = floor) /\
  (nlt x low = false -> nlt high x = false -> forall floor',
     powerlaw_pdf x alpha low high floor = powerlaw_pdf x alpha low high floor').
Proof. exact (fun x a l h f => conj (powerlaw_pdf_out x a l h f) (fun H K f' => powerlaw_floor_inside x a l h f f' H K)). Qed.
Print Assumptions C02_powerlaw_floor.
Theorem C02_powerlaw_floor_reals : forall x alpha low high floor : R,
  (x < low \/ high < x -> powerlaw_pdf (Fin x) (Fin alpha) (Fin low) (Fin high) (Fin floor) = Fin floor) /\
  (0 < low < high -> low <= x <= high ->
     exists p, powerlaw_pdf (Fin x) (Fin alpha) (Fin low) (Fin high) (Fin floor) = Fin p /\ 0 < p).
Proof. exact powerlaw_floor_reals. Qed.
Print Assumptions C02_powerlaw_floor_reals.
Example C02_case : nlt (Fin (-3)) (Fin 5) = true. (* a masked point whose power is NaN *)
Proof. cbn. apply Rltb_true; lra. Qed.

(** C03 *)
Theorem C03_truncnorm_normalised : forall mu sig low high, 0 < sig -> low < high ->
  density_on (fun x => truncnorm_pdf (Fin x) (Fin mu) (Fin sig) (Fin low) (Fin high) false) low high /\
  proportional_on (fun x => truncnorm_pdf (Fin x) (Fin mu) (Fin sig) (Fin low) (Fin high) false)
    (fun x => exp (- (x - mu) ^ 2 / (2 * sig ^ 2))) low high.
Proof. exact (fun m s l h H K => conj (truncnorm_density m s l h H K) (truncnorm_shape m s l h H K)). Qed.
Print Assumptions C03_truncnorm_normalised.
Theorem C03_lognormal_normalised : forall mu sig low high, 0 < sig -> 0 < low < high ->
  density_on (fun x => truncnorm_pdf (Fin x) (Fin mu) (Fin sig) (Fin low) (Fin high) true) low high /\
  proportional_on (fun x => truncnorm_pdf (Fin x) (Fin mu) (Fin sig) (Fin low) (Fin high) true)
    (fun x => exp (- (ln x - mu) ^ 2 / (2 * sig ^ 2)) / x) low high.
Proof. exact (fun m s l h H K => conj (lognorm_density m s l h H K) (lognorm_shape m s l h H K)). Qed.
Print Assumptions C03_lognormal_normalised.
Theorem C03_truncnorm_zero_outside : forall mu sig low high (log : bool),
  zero_outside (fun x => truncnorm_pdf (Fin x) mu sig (Fin low) (Fin high) log) low high.
Proof. exact truncnorm_zero_outside. Qed.
Print Assumptions C03_truncnorm_zero_outside.
Example C03_case : 0 < 4 /\ (2 < 100) /\ 0 < 2 < 100. Proof. lra. Qed.

(** C04 *)
Theorem C04_logistic_unit : forall x x0 sgn sc, 0 < sc -> sgn = 1 \/ sgn = -1 ->
  exists p, logistic_unit (Fin x) (Fin x0) (Fin sgn) (Fin sc) = Fin p /\ 0 < p < 1 /\
            p = (if Rltb 0 sgn then logistic_down sc x0 x else logistic_up sc x0 x) /\
            logistic_unit (Fin x) (Fin x0) (Fin (- sgn)) (Fin sc) = Fin (1 - p) /\
            log_logistic_unit (Fin x) (Fin x0) (Fin sgn) (Fin sc) = Fin (ln p).
Proof. exact logistic_unit_props. Qed.
Print Assumptions C04_logistic_unit.
Theorem C04_logistic_midpoint : forall x0 sgn sc,
  logistic_unit (Fin x0) (Fin x0) (Fin sgn) (Fin sc) = Fin (1/2).
Proof. exact logistic_mid. Qed.
Print Assumptions C04_logistic_midpoint.
Theorem C04_logistic_monotone : forall x y x0 sc, 0 < sc -> x < y ->
  exists p q p' q',
    logistic_unit (Fin x) (Fin x0) (Fin 1) (Fin sc) = Fin p /\
    logistic_unit (Fin y) (Fin x0) (Fin 1) (Fin sc) = Fin q /\ q < p /\
    logistic_unit (Fin x) (Fin x0) (Fin (-1)) (Fin sc) = Fin p' /\
    logistic_unit (Fin y) (Fin x0) (Fin (-1)) (Fin sc) = Fin q' /\ p' < q'.
Proof. exact logistic_monotone. Qed.
Print Assumptions C04_logistic_monotone.
Theorem C04_log_logistic_all : forall x x0 sgn sc,
  log_logistic_unit (Fin x) (Fin x0) (Fin sgn) (Fin sc) = nlog (logistic_unit (Fin x) (Fin x0) (Fin sgn) (Fin sc)).
Proof. exact log_logistic_unit_log. Qed.
Print Assumptions C04_log_logistic_all.
Example C04_case : 0 < 4 /\ (1 = 1 \/ 1 = -1). Proof. lra. Qed.

(** C05: full claim (0 below, 1 above, increasing inside) fails; it holds strictly inside the window. *)
Theorem C05_smooth_window_partial : forall dx xmin x y, 0 < dx -> xmin < x -> x < y -> y < xmin + dx ->
  exists v w, smooth (Fin dx) (Fin x) (Fin xmin) = Fin v /\
              smooth (Fin dx) (Fin y) (Fin xmin) = Fin w /\ 0 < v /\ v < w /\ w < 1.
Proof. exact smooth_window_all. Qed.
Print Assumptions C05_smooth_window_partial.
Theorem C05_smooth_outside_refuted : forall dx xmin, 0 < dx ->
  (forall x, x < xmin -> exists v, smooth (Fin dx) (Fin x) (Fin xmin) = Fin v /\ 1/2 < v < 1) /\
  (forall x, xmin + dx < x -> exists v, smooth (Fin dx) (Fin x) (Fin xmin) = Fin v /\ 0 < v < 1/2) /\
  smooth (Fin dx) (Fin (xmin + dx)) (Fin xmin) = Fin 0.
Proof.
  exact (fun d m H => conj (fun x K => smooth_below d m x H K)
          (conj (fun x K => smooth_above d m x H K) (proj2 (smooth_at_ends d m H)))).
Qed.
Print Assumptions C05_smooth_outside_refuted.
Theorem C05_smooth_refuted : exists dx x xmin, 0 < dx /\ x < xmin /\
  smooth (Fin dx) (Fin x) (Fin xmin) <> Fin 0.
Proof. exact smooth_refuted. Qed.
Print Assumptions C05_smooth_refuted.
Example C05_case : 0 < 5 /\ 2 < 3 /\ 3 < 6 /\ 6 < 2 + 5. Proof. lra. Qed.

(** C06 *)
Theorem C06_soft_powerlaw : forall x alpha (low high : option R) lf hf, 0 < x ->
  exists p, powerlaw_logit_pdf (Fin x) (Fin alpha) (option_map Fin low) (option_map Fin high) (Fin lf) (Fin hf) = Fin p
   /\ p = Rpower x alpha
         * match low with Some l => logistic_up lf l x | None => 1 end
         * match high with Some h => logistic_down hf h x | None => 1 end
   /\ 0 < p <= Rpower x alpha.
Proof. exact powerlaw_logit_bound. Qed.
Print Assumptions C06_soft_powerlaw.
(** the requested fall-off does not reach the high-mass side: there the steepness is always 4 *)
Theorem C06_falloff_high_side_refuted : exists m1 q alpha beta mmin mmax fall_off p_q,
  powerlaw_pdf (Fin q) (Fin beta) (Fin mmin / Fin m1)%num (Fin 1) (Fin 0) = Fin p_q /\ 0 < p_q /\
  powerlaw_primary_ratio_falloff_pdf (Fin m1) (Fin q) (Fin alpha) (Fin beta) (Fin mmin) (Fin mmax) (Fin fall_off)
  <> Fin (p_q * (Rpower m1 alpha * logistic_up fall_off mmin m1 * logistic_down fall_off mmax m1)).
Proof. exact falloff_refuted. Qed.
Print Assumptions C06_falloff_high_side_refuted.
Theorem C06_falloff_actual_partial : forall m1 q alpha beta mmin mmax fall_off, 0 < mmin < m1 -> mmin / m1 <= q <= 1 ->
  exists p_q,
  powerlaw_pdf (Fin q) (Fin beta) (Fin mmin / Fin m1)%num (Fin 1) (Fin 0) = Fin p_q /\ 0 < p_q /\
  powerlaw_primary_ratio_falloff_pdf (Fin m1) (Fin q) (Fin alpha) (Fin beta) (Fin mmin) (Fin mmax) (Fin fall_off)
  = Fin (p_q * (Rpower m1 alpha * logistic_up fall_off mmin m1 * logistic_down 4 mmax m1)).
Proof. exact falloff_actual. Qed.
Print Assumptions C06_falloff_actual_partial.
Example C06_case : 0 < 30 /\ 0 < 5 < 30 /\ 5 / 30 <= 1/2 <= 1. Proof. lra. Qed.

(** C07 *)
Theorem C07_beta_value : forall betaln x a b s lnB floor,
  betaln (Fin a) (Fin b) = Fin lnB -> 0 < x < s ->
  betadist betaln (Fin x) (Fin a) (Fin b) (Fin s) floor
  = Fin (Rpower x (a - 1) * Rpower (s - x) (b - 1) / (Rpower s (a + b - 1) * exp lnB)).
Proof. exact betadist_in. Qed.
Print Assumptions C07_beta_value.
Theorem C07_beta_floor : forall betaln x a b s floor,
  nlt x (Fin 0) = true \/ nlt s x = true -> betadist betaln x a b s floor = floor.
Proof. exact betadist_out. Qed.
Print Assumptions C07_beta_floor.
Theorem C07_beta_normalised : forall betaln a b s lnB, 0 < s -> 1 < a -> 1 < b ->
  betaln (Fin a) (Fin b) = Fin lnB -> beta_integral a b (exp lnB) ->
  density_on (fun x => betadist betaln (Fin x) (Fin a) (Fin b) (Fin s) (Fin 0)) 0 s.
Proof. exact betadist_density. Qed.
Print Assumptions C07_beta_normalised.
(** every pair of shapes for which the Beta function is the (improper) Beta integral, including shapes below one *)
Theorem C07_beta_normalised_open : forall betaln a b s lnB, 0 < s ->
  betaln (Fin a) (Fin b) = Fin lnB -> beta_integral_open a b (exp lnB) ->
  density_on_open (fun x => betadist betaln (Fin x) (Fin a) (Fin b) (Fin s) (Fin 0)) 0 s.
Proof. exact betadist_density_open. Qed.
Print Assumptions C07_beta_normalised_open.
Example C07_case_below_one : beta_integral_open (1/2) 1 2.
Proof. exact beta_integral_open_half. Qed.
(** a uniform Beta (alpha = 1) is NaN at the lower end point, alpha < 1 is +inf there *)
Theorem C07_beta_endpoint_refuted : forall betaln b s lnB, betaln (Fin 1) (Fin b) = Fin lnB -> 0 < s ->
  betadist betaln (Fin 0) (Fin 1) (Fin b) (Fin s) (Fin 0) = NaN.
Proof. exact (fun bl b s lnB H K => betadist_nan_left bl b s lnB (Fin 0) H K). Qed.
Print Assumptions C07_beta_endpoint_refuted.
Theorem C07_beta_endpoint_inf_refuted : forall betaln a b s lnB, betaln (Fin a) (Fin b) = Fin lnB -> 0 < s -> a < 1 ->
  betadist betaln (Fin 0) (Fin a) (Fin b) (Fin s) (Fin 0) = PInf.
Proof. exact (fun bl a b s lnB H K L => betadist_inf_left bl a b s lnB (Fin 0) H K L). Qed.
Print Assumptions C07_beta_endpoint_inf_refuted.
Example C07_case : beta_integral 2 2 (1/6).
Proof. exact beta_integral_22. Qed.
