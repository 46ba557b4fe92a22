(** The B-spline population model in elementary terms: what its likelihood should be. *)
From Verif Require Export SpecSetup SpecAnalysis Spec.
Open Scope R_scope.
Open Scope string_scope.
Open Scope list_scope.

(** one binary: masses, spins and redshift, and the sampling prior's density at it *)
Record binary : Set := Binary { b_m1 : R; b_q : R; b_a1 : R; b_a2 : R; b_c1 : R; b_c2 : R; b_z : R; b_prior : R }.
Definition columns : list (string * (binary -> R)) :=
  [("mass_1", b_m1); ("mass_ratio", b_q); ("a_1", b_a1); ("a_2", b_a2); ("cos_tilt_1", b_c1); ("cos_tilt_2", b_c2); ("redshift", b_z); ("prior", b_prior)].
(** the tables hold the posterior samples [events] (n per event) and the found injections [found] *)
Definition tables_hold (pe : dict arr2) (inj : dict (list num)) (n : nat) (events : list (list binary)) (found : list binary) : Prop :=
  Forall (fun e => length e = n) events /\
  forall c f, In (c, f) columns -> assoc c pe = Ok (Arr2 n (map (map (fun b => Fin (f b))) events)) /\ assoc c inj = Ok (map (fun b => Fin (f b)) found).

(** exponential of a cubic spline in u(x) with n coefficients on [lo, hi], normalised on m equally spaced points; zero outside *)
Definition log_spline_pdf (u : R -> R) (m : nat) (lo hi : R) (n : nat) (cs : list R) (x : R) : R :=
  if (Rleb lo x && Rleb x hi)%bool then scaled_on (rlinspace lo hi m) (fun x => exp (curve (u lo) (u hi) n 4 cs (u x))) x else 0.
(** the ends of the redshift grid: the larger of the smallest, the smaller of the largest redshifts of the two sets *)
Definition z_low (events : list (list binary)) (found : list binary) : R :=
  let p := map b_z (concat events) in let i := map b_z found in grid_lo (hd 0 p) (tl p) (hd 0 i) (tl i).
Definition z_high (events : list (list binary)) (found : list binary) : R :=
  let p := map b_z (concat events) in let i := map b_z found in grid_hi (hd 0 p) (tl p) (hd 0 i) (tl i).

(** a population: mass range, volume element, redshift range, evolution parameter, spline coefficients *)
Record population := Population { o_mmin : R; o_mmax : R; o_vol : R -> R; o_zlo : R; o_zhi : R; o_lamb : R;
  o_m : list R; o_q : list R; o_a1 : list R; o_a2 : list R; o_t1 : list R; o_t2 : list R; o_z : list R }.
Definition mass_pdf p := log_spline_pdf ln 1500 (o_mmin p) (o_mmax p) (length (o_m p)) (o_m p).
Definition ratio_pdf p := log_spline_pdf (fun x => x) 1000 (o_mmin p / o_mmax p) 1 (length (o_q p)) (o_q p).
Definition spin_pdf cs := log_spline_pdf (fun x => x) 1000 0 1 (length cs) cs.
Definition cosine_pdf cs := log_spline_pdf (fun x => x) 1000 (-1) 1 (length cs) cs.
Definition z_pdf p := redshift_density (o_vol p) (o_zlo p) (o_zhi p) (o_lamb p) (length (o_z p)) (o_z p).
(** population density over sampling prior *)
Definition weight (p : population) (b : binary) : R :=
  mass_pdf p (b_m1 b) * ratio_pdf p (b_q b) * (spin_pdf (o_a1 p) (b_a1 b) * spin_pdf (o_a2 p) (b_a2 b)) *
  (cosine_pdf (o_t1 p) (b_c1 b) * cosine_pdf (o_t2 p) (b_c2 b)) * z_pdf p (b_z b) / b_prior b.
(** the binary lies where the population lives *)
Definition covered (p : population) (b : binary) : Prop :=
  o_mmin p <= b_m1 b <= o_mmax p /\ o_mmin p / o_mmax p <= b_q b <= 1 /\ 0 <= b_a1 b <= 1 /\ 0 <= b_a2 b <= 1 /\
  -1 <= b_c1 b <= 1 /\ -1 <= b_c2 b <= 1 /\ b_z b <= o_zhi p.
(** at least four coefficients per spline, finite floats, and knots at least 1e-6 apart *)
Definition spline_ok (cs : list R) (width : R) : Prop := (4 <= length cs)%nat /\ (forall c, In c cs -> - FMAX < c) /\ 1 / 10 ^ 6 <= width / INR (length cs - 3).
Definition population_ok (p : population) : Prop :=
  0 < o_mmin p < o_mmax p /\ 0 < o_zlo p < o_zhi p /\ (forall z, 0 < z -> 0 < o_vol p z) /\
  spline_ok (o_m p) (ln (o_mmax p) - ln (o_mmin p)) /\ spline_ok (o_q p) (1 - o_mmin p / o_mmax p) /\
  spline_ok (o_a1 p) 1 /\ spline_ok (o_a2 p) 1 /\ spline_ok (o_t1 p) 2 /\ spline_ok (o_t2 p) 2 /\
  length (o_a2 p) = length (o_a1 p) /\ length (o_t2 p) = length (o_t1 p) /\
  (4 <= length (o_z p))%nat /\ 1 / 10 ^ 6 <= (ln (o_zhi p) - ln (o_zlo p)) / INR (length (o_z p) - 3).
(** the population drawn at the model's sites: nm, nq, na, nct, nz coefficients, the first redshift coefficient fixed to zero *)
Definition drawn_population (mmin mmax : R) (v : R -> R) (zlo zhi lamb : R) (draw : string -> nat -> R) (nm nq na nct nz : nat) : population :=
  let vec site k := map (draw site) (seq 0 k) in
  Population mmin mmax v zlo zhi lamb (vec "mass_cs" nm) (vec "q_cs" nq) (vec "a1_cs" na) (vec "a2_cs" na) (vec "tilt1_cs" nct) (vec "tilt2_cs" nct) (0 :: vec "z_cs" (nz - 1)%nat).
(** a call without mixture categories on plain (not log) weights of these events, for N injections in total *)
Definition call_ok (a : hl_args) (n : nat) (events : list (list binary)) (found : list binary) (N : R) : Prop :=
  categorical a = false /\ logw a = false /\ (0 < n)%nat /\ events <> [] /\ Nobs a = length events /\ total_inj a = CFloat (Fin N) /\ INR (length found) < N /\
  (reconstruct_rate a = true -> surveyed_hypervolume a <> None) /\ bad_flags a = false.
(** the log-likelihood: sum over the events of the log of the mean weight, minus Nobs times the log of the selection efficiency,
    plus the correction for the uncertainty of that efficiency if asked for *)
Definition log_likelihood (a : hl_args) (p : population) (events : list (list binary)) (found : list binary) (N : R) : R :=
  let nobs := INR (length events) in let ws := map (weight p) found in
  Rlsum (map (fun e => ln (mean (map (weight p) e))) events) - nobs * ln (mc_mu N ws)
  + (if marginalize_selection a then nobs * (3 + nobs) / (2 * mc_neff N ws) else 0).
(** data, population and call for which that is what the model should hand to the sampler: positive redshifts and priors, a sample
    of every event and an injection where the population lives, and enough effective samples for the cuts that are switched on *)
Definition fit_ok (a : hl_args) (n : nat) (events : list (list binary)) (found : list binary) (N : R) (p : population) : Prop :=
  call_ok a n events found N /\ population_ok p /\
  (forall b, In b (concat events ++ found) -> 0 < b_z b /\ 0 < b_prior b) /\
  (forall e, In e events -> exists b, In b e /\ covered p b) /\ (exists b, In b found /\ covered p b) /\
  let rows := map (map (weight p)) events in let ws := map (weight p) found in
  (min_neff_cut a = true -> 4 * INR (length events) <= mc_neff N ws /\ forall r, In r rows -> INR (length events) < ess r) /\
  (max_variance_cut a = true -> INR (length events) ^ 2 * (/ mc_neff N ws - / N) + Rlsum (map (fun r => / ess r - / INR n) rows) <= 1).
(** the same binary with its sampling prior multiplied by c *)
Definition reprior (c : R) (b : binary) : binary := Binary (b_m1 b) (b_q b) (b_a1 b) (b_a2 b) (b_c1 b) (b_c2 b) (b_z b) (c * b_prior b).
