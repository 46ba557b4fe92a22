(** Model of gwinferno/numpyro_distributions.py, for scalar parameters (batch shape ()).  Values and quantiles are
    scalars: array arguments are treated element by element; jnp.atleast_1d only adds an axis.  numpyro's validation of
    arguments and samples is off by default and not modelled.  random.uniform is an oracle: a draw is a number in [0,1). *)
From Verif Require Export Arr MSmoothing.
Open Scope num_scope.

(** jnp.cumsum, from a running total *)
Fixpoint cumsum (acc : num) (l : list num) : list num := match l with [] => [] | x :: r => (acc + x) :: cumsum (acc + x) r end.
(** cumtrapz (20-24).  range(1, len(y)) is empty for len(y) <= 1, and jnp.array of an empty list is an array of floats,
    which cannot index; vmap needs equal lengths; an index past the end is clamped. *)
Definition cumtrapz (y x : list num) : result (list num) :=
  if Nat.leb (length y) 1 then Err TypeError
  else if negb (Nat.eqb (length y) (length x)) then Err ValueError
  else
    let at_ i := nth (Nat.min i (length y - 1)) y NaN in
    let terms := map2 (fun i d => d * (at_ i + at_ (i + 1)%nat) / Fin 2) (seq 1 (length y - 1)) (ndiff x) in
    Ok (Fin 0 :: cumsum (Fin 0) terms).

(** .at[-1].set(1) *)
Fixpoint set_last (v : num) (l : list num) : list num :=
  match l with [] => [] | [_] => [v] | x :: r => x :: set_last v r end.

(** Sine (27-61) *)
Definition sine_log_prob (value : num) : num :=
  let lp := nlog (nsin value / Fin 2) in nwhere (nisnan lp) NInf lp.
Definition sine_cdf (minimum maximum value : num) : num :=
  let cdf := (ncos value - ncos minimum) / (ncos maximum - ncos minimum) in
  let cdf := nwhere (nlt value minimum) (Fin 0) cdf in
  nwhere (ngt value maximum) (Fin 1) cdf.
Definition sine_icdf (minimum maximum q : num) : num :=
  let norm := ncos minimum - ncos maximum in nacos (ncos minimum - q * norm).
(** sample (44-46): icdf of a uniform draw *)
Definition sine_sample (minimum maximum u : num) : num := sine_icdf minimum maximum u.

(** Cosine (64-98) *)
Definition cosine_log_prob (value : num) : num :=
  let lp := nlog (ncos value / Fin 2) in nwhere (nisnan lp) NInf lp.
Definition cosine_cdf (minimum maximum value : num) : num :=
  let cdf := (nsin value - nsin minimum) / (nsin maximum - nsin minimum) in
  let cdf := nwhere (nlt value minimum) (Fin 0) cdf in
  nwhere (ngt value maximum) (Fin 1) cdf.
Definition cosine_icdf (minimum maximum q : num) : num :=
  let norm := nsin minimum - nsin maximum in nasin (nsin minimum - q * norm).
Definition cosine_sample (minimum maximum u : num) : num := cosine_icdf minimum maximum u.

(** Powerlaw (101-153) *)
Definition pl_log_prob (alpha minimum maximum value : num) : num :=
  let logp := alpha * nlog value in
  let logp := logp + nlog ((Fin 1 + alpha) / (npow maximum (Fin 1 + alpha) - npow minimum (Fin 1 + alpha))) in
  let logp_neg1 := - nlog value - nlog (maximum / minimum) in
  nwhere (nlt value minimum || ngt value maximum) (nan_to_num (- PInf))
    (nwhere (neqb alpha (Fin (-1))) logp_neg1 logp).
Definition pl_cdf (alpha minimum maximum value : num) : num :=
  let cdf := (npow value (alpha + Fin 1) - npow minimum (alpha + Fin 1)) / (npow maximum (alpha + Fin 1) - npow minimum (alpha + Fin 1)) in
  let cdf_neg1 := nlog (value / minimum) / nlog (maximum / minimum) in
  let cdf := nwhere (neqb alpha (Fin (-1))) cdf_neg1 cdf in
  let cdf := nmin cdf (Fin 1) in
  nmax cdf (Fin 0).
Definition pl_icdf (alpha minimum maximum q : num) : num :=
  let icdf := npow (npow minimum (Fin 1 + alpha) + q * (npow maximum (Fin 1 + alpha) - npow minimum (Fin 1 + alpha))) (Fin 1 / (Fin 1 + alpha)) in
  let icdf_neg1 := minimum * nexp (q * nlog (maximum / minimum)) in
  nwhere (neqb alpha (Fin (-1))) icdf_neg1 icdf.
Definition pl_sample (alpha minimum maximum u : num) : num := pl_icdf alpha minimum maximum u.

(** PowerlawRedshift (156-201) *)
Record plz := PLZ { z_lamb : num; z_max : num; z_zs : list num; z_dV : list num; z_pdfs : list num; z_norm : num; z_cdfgrid : list num }.
Definition make_plz (lamb maximum : num) (zgrid dVcdz : list num) : result plz :=
  let pdfs := map2 (fun d z => d * npow (Fin 1 + z) (lamb - Fin 1)) dVcdz zgrid in
  let norm := ntrapz pdfs zgrid in
  let pdfs := map (fun p => p / norm) pdfs in
  do g <- cumtrapz pdfs zgrid ;
  Ok (PLZ lamb maximum zgrid dVcdz pdfs norm (set_last (Fin 1) g)).
Definition plz_log_prob (d : plz) (value : num) : num :=
  let dVdc := ninterp value (z_zs d) (z_dV d) in
  nwhere (nle value (z_max d)) (nlog dVdc + (z_lamb d - Fin 1) * nlog (Fin 1 + value) - nlog (z_norm d)) (nan_to_num (- PInf)).
Definition plz_cdf (d : plz) (value : num) : num := ninterp value (z_zs d) (z_cdfgrid d).
Definition plz_icdf (d : plz) (q : num) : num := ninterp q (z_cdfgrid d) (z_zs d).
Definition plz_sample (d : plz) (u : num) : num := plz_icdf d u.

(** PowerlawSmoothedPowerlaw (204-255) *)
Record pspl := PSPL { s_alpha : num; s_min : num; s_max : num; s_amax : num; s_amin : num; s_k1 : num; s_k2 : num; s_k3 : num }.
Definition make_pspl (alpha minimum maximum alpha_max alpha_min low high : num) : pspl :=
  let alpha_max := - alpha_max in
  let gamma := (alpha_min + Fin 1) / (npow minimum (alpha_min + Fin 1) - npow low (alpha_min + Fin 1)) in
  let k1 := - gamma / (Fin 1
     + gamma / (alpha + Fin 1) * npow minimum (alpha_min - alpha) * (npow minimum (alpha + Fin 1) - npow maximum (alpha + Fin 1))
     + gamma / (alpha_max + Fin 1) * npow minimum (alpha_min - alpha) * npow maximum (alpha - alpha_max)
         * (npow maximum (alpha_max + Fin 1) - npow high (alpha_max + Fin 1))) in
  let k2 := k1 * npow minimum (alpha_min - alpha) in
  let k3 := k2 * npow maximum (alpha - alpha_max) in
  PSPL alpha minimum maximum alpha_max alpha_min k1 k2 k3.
Definition pspl_log_prob (d : pspl) (value : num) : num :=
  let low_pl := nwhere (nlt value (s_min d)) (nlog (s_k1 d) + nlog value * s_amin d) (Fin 0) in
  let high_pl := nwhere (ngt value (s_max d)) (nlog (s_k3 d) + nlog value * s_amax d) (Fin 0) in
  let mid_pl := nwhere (nge value (s_min d)) (nwhere (nle value (s_max d)) (nlog (s_k2 d) + nlog value * s_alpha d) (Fin 0)) (Fin 0) in
  low_pl + mid_pl + high_pl.
(** sample (241-244): an array of ones, whatever the distribution and the random draw u *)
Definition pspl_sample (d : pspl) (u : num) : num := Fin 1.

(** BSplineDistribution (258-299); grid_dmat has one row per coefficient.  einsum("i,i...->...") on the rows. *)
Record bsd := BSD { b_grid : list num; b_lpdfs : list num; b_pdfs : list num; b_norm : num; b_cdfgrid : list num }.
Definition einsum_rows (cs : list num) (rows : list (list num)) (n : nat) : list num :=
  map (fun j => ndot cs (map (fun r => nth j r NaN) rows)) (seq 0 n).
Definition make_bsd (cs grid : list num) (grid_dmat : list (list num)) : result bsd :=
  if negb (Nat.eqb (length cs) (length grid_dmat)) then Err ValueError else
  let lpdfs := map (nan_to_num_gen NInf (Fin FMAX) (Fin (- FMAX))) (einsum_rows cs grid_dmat (length grid)) in
  let pdfs := map nexp lpdfs in
  let norm := ntrapz pdfs grid in
  let pdfs := map (fun p => p / norm) pdfs in
  do g <- cumtrapz pdfs grid ;
  Ok (BSD grid lpdfs pdfs norm (set_last (Fin 1) g)).
Definition bsd_log_prob (d : bsd) (value : num) : num := ninterp value (b_grid d) (b_lpdfs d) - nlog (b_norm d).
Definition bsd_cdf (d : bsd) (value : num) : num := ninterp value (b_grid d) (b_cdfgrid d).
Definition bsd_icdf (d : bsd) (q : num) : num := ninterp q (b_cdfgrid d) (b_grid d).
Definition bsd_sample (d : bsd) (u : num) : num := bsd_icdf d u.

(** PSplineCoeficientPrior (302-325), scalar inv_var, so that batch_shape is ().  An array is its shape and its entries in row-major order. *)
Record tensor := Tensor { t_shape : list nat; t_data : list num }.
Record psp := PSP { p_N : nat; p_inv_var : num; p_order : nat }.
Definition psp_sample (d : psp) (sample_shape : list nat) : tensor :=
  let shape := (sample_shape ++ [])%list in
  Tensor shape (repeat (Fin 1) (fold_right Nat.mul 1%nat shape)).
Definition psp_log_prob (d : psp) (value : tensor) : result num :=
  match t_shape value with
  | [n] => if Nat.eqb n (p_N d) then Ok (apply_difference_prior (t_data value) (p_inv_var d) (p_order d)) else Err AssertionError
  | _ => Err AssertionError
  end.
