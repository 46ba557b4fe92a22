(** examples/simple_bspline_example.py and examples/simple_powerlaw_peak_example.py: the second half of main, from the posterior to
    the exported curves.  The posterior is a data set whose variables share the dimension "draw" (loaded from a file, lines 137/151, or the
    data set made from the sampler's output, 142/156), so its columns have equally many rows and are read together.
    Plotting does not change the arrays (C109) and is left out; the data set is what to_netcdf writes. *)
From Verif Require Export MPostprocess MUtils MSetup.
Open Scope string_scope.
Open Scope list_scope.

(** posterior[name].values: one vector or one number per draw *)
Inductive samples_of : Type := Vectors (l : list (list num)) | Numbers (l : list num).
Definition vectors (posterior : dict samples_of) (name : string) : result (list (list num)) :=
  do v <- assoc name posterior; match v with Vectors l => Ok l | Numbers _ => Err TypeError end.
Definition numbers (posterior : dict samples_of) (name : string) : result (list num) :=
  do v <- assoc name posterior; match v with Numbers l => Ok l | Vectors _ => Err TypeError end.
(** the dictionaries of lines 214-223 (bspline) and 238-247 (peak) *)
Definition pdf_dict (a1 t1 a2 t2 m1 q z : curves) (mags tilts m1s qs zs : list num) : dict pdf_val :=
  let pdf cs grid := OnePdf (Arr2 (length grid) cs) in
  [("a1", pdf a1 mags); ("cos_tilt1", pdf t1 tilts); ("a2", pdf a2 mags); ("cos_tilt2", pdf t2 tilts); ("mass_1", pdf m1 m1s); ("mass_ratio", pdf q qs); ("redshift", pdf z zs)].
Definition param_dict (mags tilts m1s qs zs : list num) : dict (list num) :=
  [("a1", mags); ("a2", mags); ("cos_tilt1", tilts); ("cos_tilt2", tilts); ("mass_1", m1s); ("redshift", zs); ("mass_ratio", qs)].

(** simple_bspline_example.py:158-224.  The arguments after the posterior are those of the spline-number dictionary (108-116), of
    the command line and the redshift model; args.samples is [samples]. *)
Definition bspline_export (posterior : dict samples_of) (n_m n_q n_a1 n_a2 n_t1 n_t2 : nat) (mmin mmax : num) (z_model : plz_model) (samples : nat)
  : result (dvars * dict (list num)) :=
  do mass_cs <- vectors posterior "mass_cs"; do q_cs <- vectors posterior "q_cs";
  do (m1, m1s, q, qs) <- calculate_bspline_mass_ppds n_m n_q mmin mmax (combine mass_cs q_cs) None None;
  do a1_cs <- vectors posterior "a1_cs"; do tilt1_cs <- vectors posterior "tilt1_cs"; do a2_cs <- vectors posterior "a2_cs"; do tilt2_cs <- vectors posterior "tilt2_cs";
  do (a1, a2, mags, t1, t2, tilts) <- calculate_bspline_spin_ppds_independent n_a1 n_a2 n_t1 n_t2 (combine (combine (combine a1_cs tilt1_cs) a2_cs) tilt2_cs) None None;
  do lamb <- numbers posterior "lamb"; do z_cs <- vectors posterior "z_cs"; do rate <- numbers posterior "rate";
  do (r_of_z, zs) <- calculate_powerlaw_spline_rate_of_z_ppds z_model (combine lamb z_cs) rate None;
  snd (pdf_dict_to_xarray (pdf_dict a1 t1 a2 t2 m1 q r_of_z mags tilts m1s qs zs) (param_dict mags tilts m1s qs zs) samples None).

(** simple_powerlaw_peak_example.py:172-248; [betaln] is jax's *)
Definition peak_export (betaln : num -> num -> num) (posterior : dict samples_of) (mmin mmax : num) (z_model : zmodel) (samples : nat) : result (dvars * dict (list num)) :=
  do alpha <- numbers posterior "alpha"; do beta <- numbers posterior "beta"; do mu <- numbers posterior "mu_peak"; do sig <- numbers posterior "sig_peak"; do lam <- numbers posterior "lambda_m";
  do (m1, m1s, q, qs) <- calculate_powerlaw_peak_mass_ppds mmin mmax (combine (combine (combine (combine alpha beta) mu) sig) lam) None None;
  do alpha_a1 <- numbers posterior "alpha_a1"; do beta_a1 <- numbers posterior "beta_a1";
  do (mag1, _) <- calculate_beta_spin_mag betaln (Fin 1) (combine alpha_a1 beta_a1) None None;
  do alpha_a2 <- numbers posterior "alpha_a2"; do beta_a2 <- numbers posterior "beta_a2";
  do (mag2, mags) <- calculate_beta_spin_mag betaln (Fin 1) (combine alpha_a2 beta_a2) None None;
  do sig_ct1 <- numbers posterior "sig_ct1"; do lambda_ct1 <- numbers posterior "lambda_ct1";
  do (tilt1, _) <- calculate_mixture_iso_aligned_spin_tilt (combine sig_ct1 lambda_ct1) None None;
  do sig_ct2 <- numbers posterior "sig_ct2"; do lambda_ct2 <- numbers posterior "lambda_ct2";
  do (tilt2, tilts) <- calculate_mixture_iso_aligned_spin_tilt (combine sig_ct2 lambda_ct2) None None;
  do lamb <- numbers posterior "lamb"; do rate <- numbers posterior "rate";
  do (r_of_z, zs) <- calculate_powerlaw_rate_of_z_ppds z_model lamb rate None;
  snd (pdf_dict_to_xarray (pdf_dict mag1 tilt1 mag2 tilt2 m1 q r_of_z mags tilts m1s qs zs) (param_dict mags tilts m1s qs zs) samples None).
