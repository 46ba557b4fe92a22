(** What the exported curves of a fit should be: the densities of the fitted populations. *)
From Verif Require Export MMain SpecPeak SpecPostprocess SpecUtils.
Open Scope R_scope.
Open Scope string_scope.
Open Scope list_scope.

(** the row of draw i of an exported variable *)
Definition exported (vars : dvars) (key : string) (i : nat) (row : list num) : Prop :=
  exists w rows, assoc (key ++ "_pdfs")%string vars = Ok (["draw"; key], Some (Arr2 w rows)) /\ nth_error rows i = Some row.
(** a posterior of the B-spline model: one population and one rate per draw *)
Definition bspline_posterior (posterior : dict samples_of) (pops : list population) (rates : list R) : Prop :=
  let vecs f := Ok (Vectors (map (fun p => map Fin (f p)) pops)) in
  assoc "mass_cs" posterior = vecs o_m /\ assoc "q_cs" posterior = vecs o_q /\ assoc "a1_cs" posterior = vecs o_a1 /\ assoc "a2_cs" posterior = vecs o_a2 /\
  assoc "tilt1_cs" posterior = vecs o_t1 /\ assoc "tilt2_cs" posterior = vecs o_t2 /\ assoc "z_cs" posterior = vecs (fun p => tl (o_z p)) /\
  assoc "lamb" posterior = Ok (Numbers (map (fun p => Fin (o_lamb p)) pops)) /\ assoc "rate" posterior = Ok (Numbers (map Fin rates)) /\ length rates = length pops.
(** populations with these ranges and numbers of coefficients *)
Definition same_ranges (mmin mmax zlo zhi : R) (nm nq na nct nz : nat) (p : population) : Prop :=
  population_ok p /\ o_mmin p = mmin /\ o_mmax p = mmax /\ o_zlo p = zlo /\ o_zhi p = zhi /\
  length (o_m p) = nm /\ length (o_q p) = nq /\ length (o_a1 p) = na /\ length (o_t1 p) = nct /\ length (o_z p) = nz /\ hd 1 (o_z p) = 0.
(** the data the redshift model is made from: positive redshifts *)
Definition data_ok (pe : dict arr2) (inj : dict (list num)) (n : nat) (events : list (list binary)) (found : list binary) : Prop :=
  tables_hold pe inj n events found /\ (0 < n)%nat /\ events <> [] /\ found <> [] /\ forall b, In b (concat events ++ found) -> 0 < b_z b.
(** the grids of the curves *)
Definition export_grid (mmin mmax zlo zhi : R) : dict (list num) :=
  let mags := map Fin (rlinspace 0 1 800) in let tilts := map Fin (rlinspace (-1) 1 800) in
  [("a1", mags); ("a2", mags); ("cos_tilt1", tilts); ("cos_tilt2", tilts); ("mass_1", map Fin (rlinspace mmin mmax 800)); ("redshift", map Fin (rlinspace zlo zhi 1000));
   ("mass_ratio", map Fin (rlinspace (mmin / mmax) 1 800))].
(** a rate curve belonging to a redshift density: the density is the rate per comoving volume and source time, seen by the
    observer, scaled to one *)
Definition rate_of (zlo zhi : R) (vol density : R -> R) (r0 : R) (evolution : R -> R) (row : list num) : Prop :=
  let zs := rlinspace zlo zhi 1000 in
  row = map (fun z => Fin (r0 * evolution z)) zs /\ forall z, In z zs -> density z = scaled_on zs (fun z => vol z * evolution z / (1 + z)) z.
(** the masses are fitted without, and drawn with, the condition that the secondary mass exceeds the minimum *)
Definition above_minimum (mmin : R) (f : R -> R -> R) (m q : R) : R := if Rltb mmin (q * m) then f m q else 0.
(** a posterior of the power-law-peak model: one population and one rate per draw; the shapes of the spin distributions are recorded *)
Definition peak_posterior (posterior : dict samples_of) (ks : list peak) (rates : list R) : Prop :=
  let nums f := Ok (Numbers (map (fun k => Fin (f k)) ks)) in
  assoc "alpha" posterior = nums k_alpha /\ assoc "beta" posterior = nums k_beta /\ assoc "mu_peak" posterior = nums k_mu /\ assoc "sig_peak" posterior = nums k_sig /\ assoc "lambda_m" posterior = nums k_lam /\
  assoc "alpha_a1" posterior = nums (fun k => k_mu1 k * k_v1 k) /\ assoc "beta_a1" posterior = nums (fun k => (1 - k_mu1 k) * k_v1 k) /\
  assoc "alpha_a2" posterior = nums (fun k => k_mu2 k * k_v2 k) /\ assoc "beta_a2" posterior = nums (fun k => (1 - k_mu2 k) * k_v2 k) /\
  assoc "sig_ct1" posterior = nums k_s1 /\ assoc "lambda_ct1" posterior = nums k_x1 /\ assoc "sig_ct2" posterior = nums k_s2 /\ assoc "lambda_ct2" posterior = nums k_x2 /\
  assoc "lamb" posterior = nums k_lamb /\ assoc "rate" posterior = Ok (Numbers (map Fin rates)) /\ length rates = length ks.
(** parameters in the ranges of their priors ([peak_ok] without the Beta integrals), with these mass and redshift ranges *)
Definition same_peak_ranges (mmin mmax zlo zhi : R) (k : peak) : Prop :=
  0 < mmin < mmax /\ 0 < zlo < zhi /\ k_mmin k = mmin /\ k_mmax k = mmax /\ k_zlo k = zlo /\ k_zhi k = zhi /\ 0 < k_sig k /\ 0 <= k_lam k <= 1 /\
  0 < k_mu1 k < 1 /\ 0 < k_v1 k /\ 0 < k_mu2 k < 1 /\ 0 < k_v2 k /\ 0 <= k_x1 k <= 1 /\ 0 <= k_x2 k <= 1 /\ 0 < k_s1 k /\ 0 < k_s2 k.
(** a curve without information: not a number at both ends, zero between them *)
Definition lost_curve (curve : list num) : Prop := curve = map (fun x => if (Rltb 0 x && Rltb x 1)%bool then Fin 0 else NaN) (rlinspace 0 1 800).
