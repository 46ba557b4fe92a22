(** Model of gwinferno/models/parametric/parametric.py. *)
From Verif Require Export MDistributions.
Open Scope num_scope.

(** parametric.py:27-30 *)
Definition powerlaw_primary_ratio_pdf (m1 q alpha beta mmin mmax : num) : num :=
  let p_q := powerlaw_pdf q beta (mmin / m1) (Fin 1) (Fin 0) in
  let p_m1 := powerlaw_pdf m1 alpha mmin mmax (Fin 0) in
  p_q * p_m1.

(** parametric.py:33-36; [fall_off] is passed positionally and so lands in [low_fall_off];
    [high_fall_off] keeps its default 4.0. *)
Definition powerlaw_primary_ratio_falloff_pdf (m1 q alpha beta mmin mmax fall_off : num) : num :=
  let p_q := powerlaw_pdf q beta (mmin / m1) (Fin 1) (Fin 0) in
  let p_m1 := powerlaw_logit_pdf m1 alpha (Some mmin) (Some mmax) fall_off (Fin 4) in
  p_q * p_m1.

(** parametric.py:50-54 *)
Definition plpeak_primary_pdf (m1 alpha mmin mmax mpp sigpp lam : num) (delta : option num) : num :=
  match delta with
  | None => (Fin 1 - lam) * powerlaw_pdf m1 alpha mmin mmax (Fin 0)
            + lam * truncnorm_pdf m1 mpp sigpp mmin mmax false
  | Some d => (Fin 1 - lam) * powerlaw_pdf m1 alpha mmin mmax (Fin 0) * smooth d m1 mmin
            + lam * truncnorm_pdf m1 mpp sigpp mmin mmax false
  end.

(** parametric.py:39-47 *)
Definition plpeak_primary_ratio_pdf (m1 q alpha beta mmin mmax mpp sigpp lam : num) (delta : option num) : num :=
  let p_q := powerlaw_pdf q beta (mmin / m1) (Fin 1) (Fin 0) in
  let p_m1 := plpeak_primary_pdf m1 alpha mmin mmax mpp sigpp lam delta in
  match delta with
  | None => p_q * p_m1
  | Some d => p_q * smooth d (q * m1) mmin * p_m1
  end.

(** parametric.py:64-65 *)
Definition beta_spin_magnitude (betaln : num -> num -> num) (a alpha beta amax : num) : num :=
  betadist betaln a alpha beta amax (Fin 0).

(** parametric.py:68-69 *)
Definition iid_spin_magnitude (betaln : num -> num -> num) (a1 a2 alpha_mag beta_mag amax : num) : num :=
  betadist betaln a1 alpha_mag beta_mag amax (Fin 0) * betadist betaln a2 alpha_mag beta_mag amax (Fin 0).

(** parametric.py:72-82 *)
Definition independent_spin_magnitude_beta_dist (betaln : num -> num -> num)
    (a1 a2 alpha_mag1 beta_mag1 alpha_mag2 beta_mag2 amax1 amax2 : num) : num :=
  betadist betaln a1 alpha_mag1 beta_mag1 amax1 (Fin 0) * betadist betaln a2 alpha_mag2 beta_mag2 amax2 (Fin 0).

(** parametric.py:85-87 *)
Definition mixture_isoalign_spin_tilt (ct xi_tilt sigma_tilt : num) : num :=
  let cut := nwhere (ngt ct (Fin 1) || nlt ct (Fin (-1))) (Fin 0) (Fin 1) in
  cut * (Fin 1 - xi_tilt) / Fin 2 + xi_tilt * truncnorm_pdf ct (Fin 1) sigma_tilt (Fin (-1)) (Fin 1) false.

(** parametric.py:90-91 *)
Definition iid_spin_tilt (ct1 ct2 xi_tilt sigma_tilt : num) : num :=
  mixture_isoalign_spin_tilt ct1 xi_tilt sigma_tilt * mixture_isoalign_spin_tilt ct2 xi_tilt sigma_tilt.

(** parametric.py:94-95 *)
Definition independent_spin_tilt (ct1 ct2 xi_tilt_1 xi_tilt_2 sigma_tilt1 sigma_tilt2 : num) : num :=
  mixture_isoalign_spin_tilt ct1 xi_tilt_1 sigma_tilt1 * mixture_isoalign_spin_tilt ct2 xi_tilt_2 sigma_tilt2.

(** parametric.py:98-103 *)
Definition default_spin_tilt (ct1 ct2 xi_tilt sigma_tilt : num) : num :=
  let iso1 := nwhere (ngt ct1 (Fin 1) || nlt ct1 (Fin (-1))) (Fin 0) (Fin (1/2)) in
  let iso2 := nwhere (ngt ct2 (Fin 1) || nlt ct2 (Fin (-1))) (Fin 0) (Fin (1/2)) in
  let ali1 := truncnorm_pdf ct1 (Fin 1) sigma_tilt (Fin (-1)) (Fin 1) false in
  let ali2 := truncnorm_pdf ct2 (Fin 1) sigma_tilt (Fin (-1)) (Fin 1) false in
  (Fin 1 - xi_tilt) * iso1 * iso2 + xi_tilt * ali1 * ali2.

(** parametric.py:113-121 PowerlawRedshiftModel.__init__.  [dVcdz] is Planck15.dVcdz (see
    MCosmology).  PE samples are given flattened; empty sample sets (a ValueError in jnp.min) are
    excluded by the non-empty representation (head, tail). *)
Record zmodel := { zm_min : num; zm_max : num; zm_zs : list num; zm_dV : list num }.
Definition redshift_model_init (dVcdz : num -> num) (pe0 : num) (pe : list num) (inj0 : num) (inj : list num)
  : zmodel :=
  let zmin := nmax (nminl pe0 pe) (nminl inj0 inj) in
  let zmax := nmin (nmaxl pe0 pe) (nmaxl inj0 inj) in
  let zs := nlinspace zmin zmax 1000 in
  {| zm_min := zmin; zm_max := zmax; zm_zs := zs; zm_dV := map dVcdz zs |}.

(** parametric.py:126-127 prob *)
Definition redshift_prob (z dVdz lamb : num) : num := dVdz * npow (Fin 1 + z) (lamb - Fin 1).

(** parametric.py:123-124 normalization *)
Definition redshift_normalization (m : zmodel) (lamb : num) : num :=
  ntrapz (map2 (fun z dV => redshift_prob z dV lamb) (zm_zs m) (zm_dV m)) (zm_zs m).

(** parametric.py:129-136 log_prob; the stored per-sample dVdz is passed explicitly. *)
Definition redshift_log_prob (m : zmodel) (z dVdz lamb : num) : num :=
  nwhere (nle z (zm_max m))
    (nlog dVdz + (lamb - Fin 1) * nlog (Fin 1 + z) - nlog (redshift_normalization m lamb))
    (nan_to_num NInf).

(** parametric.py:138-145 __call__ *)
Definition redshift_call (m : zmodel) (z dVdz lamb : num) : num :=
  nwhere (nle z (zm_max m)) (redshift_prob z dVdz lamb / redshift_normalization m lamb) (Fin 0).
