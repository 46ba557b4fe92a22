(** gwinferno/pipeline/utils.py:99-158 (building the B-spline models from the loaded tables) and the models of the example
    scripts (examples/simple_bspline_example.py, examples/simple_powerlaw_peak_example.py, examples/config_files/model.py). *)
From Verif Require Export MUtils MBSplines.
Open Scope R_scope.
Open Scope string_scope.
Open Scope list_scope.
Close Scope num_scope.

(** A Python value given for an option or an argument *)
Inductive arg : Type := ANone | AStr (s : string) | AInt (z : Z) | AFloat (x : num) | ABool (b : bool).

(** A number of splines as the spline constructors use it (interpolation.py:100: np.linspace(xrange[0], xrange[1], n_df - k + 2)): a string or
    None cannot be subtracted from and a float is no count (TypeError), a negative count is a ValueError. *)
Definition as_count (a : arg) : result nat :=
  match a with
  | AInt z => if (z <? 0)%Z then Err ValueError else Ok (Z.to_nat z)
  | ABool b => Ok (if b then 1%nat else 0%nat)
  | _ => Err TypeError
  end.

(** the entries of a 2-d array, row after row (the B-spline models treat samples elementwise) *)
Definition flat (a : arr2) : list num := concat (a_rows a).

(** Keyword arguments basis=s / normalize=True, everything else at its default *)
Definition with_basis (s : skind) : opts := Opts (Some s) None None None None None.
Definition normalized : opts := Opts None None None None None (Some true).

(** utils.py:104-118.  Both numbers of splines are converted before the two models are built (the order only decides which of
    two errors is raised). *)
Definition setup_bspline_mass_models (pedict : dict arr2) (injdict : dict (list num)) (m_nsplines q_nsplines : arg) (mmin mmax : num) : result (m1d * m1d) :=
  do m1 <- assoc "mass_1" pedict; do m1_inj <- assoc "mass_1" injdict;
  do q <- assoc "mass_ratio" pedict; do q_inj <- assoc "mass_ratio" injdict;
  do nm <- as_count m_nsplines; do nq <- as_count q_nsplines;
  primary_ratio (with_basis KLogXLogY) (with_basis KLogY) nm nq (flat m1) m1_inj (flat q) q_inj mmax mmin mmin.

(** utils.py:121-146: (mag_model, tilt_model); the tilt model is built first *)
Definition setup_bspline_spin_models (pedict : dict arr2) (injdict : dict (list num)) (a1_nsplines ct1_nsplines : arg) (IID : bool) (a2_nsplines ct2_nsplines : arg)
  : result ((m1d * m1d) * (m1d * m1d)) :=
  if IID then
    do c1 <- assoc "cos_tilt_1" pedict; do c2 <- assoc "cos_tilt_2" pedict; do c1i <- assoc "cos_tilt_1" injdict; do c2i <- assoc "cos_tilt_2" injdict;
    do nct <- as_count ct1_nsplines;
    do tilt <- iid_spin_tilts normalized nct (flat c1) (flat c2) c1i c2i;
    do a1 <- assoc "a_1" pedict; do a2 <- assoc "a_2" pedict; do a1i <- assoc "a_1" injdict; do a2i <- assoc "a_2" injdict;
    do na <- as_count a1_nsplines;
    do mag <- iid_spin_magnitudes normalized na (flat a1) (flat a2) a1i a2i;
    Ok (mag, tilt)
  else
    do c1 <- assoc "cos_tilt_1" pedict; do c2 <- assoc "cos_tilt_2" pedict; do c1i <- assoc "cos_tilt_1" injdict; do c2i <- assoc "cos_tilt_2" injdict;
    do n1 <- as_count ct1_nsplines; do n2 <- as_count ct2_nsplines;
    do tilt <- independent_spin_tilts normalized normalized n1 n2 (flat c1) (flat c2) c1i c2i;
    do a1 <- assoc "a_1" pedict; do a2 <- assoc "a_2" pedict; do a1i <- assoc "a_1" injdict; do a2i <- assoc "a_2" injdict;
    do n1 <- as_count a1_nsplines; do n2 <- as_count a2_nsplines;
    do mag <- independent_spin_magnitudes normalized normalized n1 n2 (flat a1) (flat a2) a1i a2i;
    Ok (mag, tilt).

(** utils.py:149-155; [dVcdz] is the volume element of the Planck cosmology.  jnp.min / jnp.max of an empty array is a ValueError. *)
Definition setup_powerlaw_spline_redshift_model (dVcdz : num -> num) (pedict : dict arr2) (injdict : dict (list num)) (z_nsplines : arg) : result plz_model :=
  do z <- assoc "redshift" pedict; do z_inj <- assoc "redshift" injdict;
  match flat z, z_inj with
  | z0 :: zr, i0 :: ir => do n <- as_count z_nsplines; make_plz_model dVcdz KLogX n z0 zr i0 ir
  | _, _ => Err ValueError
  end.

(** ** Example scripts *)

(** examples/utils.py:54-59: the models the sampler's model is called with *)
Definition example_setup (dVcdz : num -> num) (pedict : dict arr2) (injdict : dict (list num)) (nm nq na nct nz : arg) (mmin mmax : num) :=
  do mass <- setup_bspline_mass_models pedict injdict nm nq mmin mmax;
  do (mag, tilt) <- setup_bspline_spin_models pedict injdict na nct false na nct;
  do z <- setup_powerlaw_spline_redshift_model dVcdz pedict injdict nz;
  Ok (mass, mag, tilt, z).

(** array / array; arrays of different lengths cannot be combined *)
Definition quotient (p q : list num) : result (list num) := if Nat.eqb (length p) (length q) then Ok (map2 ndiv p q) else Err TypeError.

(** simple_bspline_example.py:59-70 get_weights, on the flattened samples ([pe]) or the injections *)
Definition bspline_weights (mass mag tilt : m1d * m1d) (zm : plz_model) (mass_cs q_cs a1_cs tilt1_cs a2_cs tilt2_cs z_cs : list num) (lamb : num)
  (redshift prior : list num) (pe : bool) : result (list num) :=
  do p_m1q <- primary_ratio_call mass mass_cs q_cs pe;
  do p_a <- pair_call (fst mag) (snd mag) a1_cs a2_cs pe;
  do p_ct <- pair_call (fst tilt) (snd tilt) tilt1_cs tilt2_cs pe;
  do p_z <- plz_model_call zm redshift pe lamb z_cs;
  do w <- product p_m1q p_a; do w <- product w p_ct; do w <- product w p_z;
  quotient w prior.

(** analysis.py:139-163: the parameters of hierarchical_likelihood *)
Definition likelihood_parameters : list string :=
  ["pe_weights"; "inj_weights"; "total_inj"; "Nobs"; "Tobs"; "surveyed_hypervolume"; "categorical"; "marginal_qs"; "indv_weights"; "rngkey"; "pop_frac";
   "reconstruct_rate"; "marginalize_selection"; "min_neff_cut"; "max_variance_cut"; "posterior_predictive_check"; "param_names"; "pedata"; "injdata";
   "m2min"; "m1min"; "mmax"; "log"].
(** A Python call f( *args, **kwargs) binds its arguments before the body runs: a keyword that is not a parameter, or names a
    parameter already given by position, is a TypeError. *)
Definition binds (parameters : list string) (positional : nat) (keywords : list string) : bool :=
  forallb (fun k => existsb (String.eqb k) (skipn positional parameters)) keywords.
Definition call_likelihood (positional : nat) (keywords : list string) (a : hl_args) (d : draws) (w : pe_arg) (iw : list num) : M (option num) :=
  if binds likelihood_parameters positional keywords then hierarchical_likelihood a d w iw else raise TypeError.

(** the rows of a flattened array *)
Fixpoint rows_of (n k : nat) (l : list num) : list (list num) := match k with O => [] | S k' => firstn n l :: rows_of n k' (skipn n l) end.

(** simple_bspline_example.py:25-92 model.  [rv] are the draws of the vector sites, [lamb] the draw of "lamb" (whose site is left
    out of the returned list of sites); [a] collects the arguments for hierarchical_likelihood, [keywords] the names they are passed by. *)
Definition example_keywords : list string := ["surv_hypervolume_fct"; "vtfct_kwargs"; "param_names"; "pedata"; "injdata"; "m2min"; "m1min"; "mmax"].
Definition bspline_example_with (keywords : list string) (rv : string -> nat -> num) (lamb : num) (a : hl_args) (d : draws) (pedict : dict arr2) (injdict : dict (list num))
  (mass mag tilt : m1d * m1d) (zm : plz_model) (nm nq na nct nz : nat) : list psite * M (option num) :=
  let '(sites, cs) :=
    plet mq := bspline_mass_prior rv (Some nm) (Some nq) (Some (Fin 1)) (Some (Fin 1)) None (Fin 15) (Fin 5) 1 1 in
    plet spin := bspline_spin_prior rv (Some na) (Some nct) (Some (Fin 25)) (Some (Fin 25)) None false (Fin 5) (Fin 5) 2 2 in
    plet z_cs := bspline_redshift_prior rv (Some nz) (Some (Fin 1)) None (Fin 1) 2 in
    p_ret (mq, spin, z_cs) in
  (sites,
   match cs with
   | Ok (TwoVecs mass_cs q_cs, [a1_cs; tilt1_cs; a2_cs; tilt2_cs], z_cs) =>
       match (do z <- assoc "redshift" pedict; do p <- assoc "prior" pedict;
              bspline_weights mass mag tilt zm mass_cs q_cs a1_cs tilt1_cs a2_cs tilt2_cs z_cs lamb (flat z) (flat p) true),
             (do z <- assoc "redshift" injdict; do p <- assoc "prior" injdict;
              bspline_weights mass mag tilt zm mass_cs q_cs a1_cs tilt1_cs a2_cs tilt2_cs z_cs lamb z p false),
             assoc "redshift" pedict with
       | Ok w, Ok v, Ok z => call_likelihood 5 keywords a d (PEOne (Arr2 (a_cols z) (rows_of (a_cols z) (length (a_rows z)) w))) v
       | Err e, _, _ | _, Err e, _ | _, _, Err e => raise e
       end
   | Ok _ => raise ValueError
   | Err e => raise e
   end).
Definition bspline_example_model := bspline_example_with example_keywords.

(** simple_powerlaw_peak_example.py:81-97 get_weights at one sample, with the shapes of lines 66-69 computed from the sampled
    mu_a, var_a.  [dV] is the volume element stored for the sample's redshift. *)
Definition peak_shapes (mu var : num) : num * num := (nmul mu var, nmul (nsub (Fin 1) mu) var).
Definition peak_weight (betaln : num -> num -> num) (zm : zmodel) (alpha beta mmin mmax mu_peak sig_peak lambda_m mu_a1 var_a1 mu_a2 var_a2
  lambda_ct1 lambda_ct2 sig_ct1 sig_ct2 lamb : num) (m1 q a1 a2 ct1 ct2 z dV prior : num) : num :=
  let '(alpha_a1, beta_a1) := peak_shapes mu_a1 var_a1 in
  let '(alpha_a2, beta_a2) := peak_shapes mu_a2 var_a2 in
  let p_m1q := plpeak_primary_ratio_pdf m1 q alpha beta mmin mmax mu_peak sig_peak lambda_m None in
  let p_a := independent_spin_magnitude_beta_dist betaln a1 a2 alpha_a1 beta_a1 alpha_a2 beta_a2 (Fin 1) (Fin 1) in
  let p_ct := independent_spin_tilt ct1 ct2 lambda_ct1 lambda_ct2 sig_ct1 sig_ct2 in
  let p_z := redshift_call zm z dV lamb in
  ndiv (nmul (nmul (nmul p_m1q p_a) p_ct) p_z) prior.
(** simple_powerlaw_peak_example.py:99-116 and config_files/model.py:23-49: the calls of hierarchical_likelihood *)
Definition peak_keywords : list string :=
  ["surv_hypervolume_fct"; "vtfct_kwargs"; "param_names"; "posterior_predictive_check"; "pedata"; "injdata"; "m2min"; "m1min"; "mmax"].
Definition config_keywords : list string :=
  ["total_inj"; "Nobs"; "Tobs"; "surv_hypervolume_fct"; "vtfct_kwargs"; "marginalize_selection"; "min_neff_cut"; "posterior_predictive_check"; "pedata"; "injdata";
   "param_names"; "m1min"; "m2min"; "mmax"].
