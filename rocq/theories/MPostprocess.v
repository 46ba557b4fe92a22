(** Model of gwinferno/postprocess/calculations.py.
    The posterior draws of a call are one list of tuples, entry i holding the i-th rows of the hyperparameter arrays.
    [rate] and [pop_frac], when given, have one entry per draw; other lengths are not modelled (OtherError).
    The progress bar and jit are transparent; the numpy output arrays are the lists of the rows assigned in the loop. *)
From Verif Require Export MBSplines MCosmology.
Open Scope num_scope.

(** number of points of every grid (linspace(..., 800)) *)
Definition PPD_POINTS : nat := 800.
(** if rate is None: rate = jnp.ones(n) (26-29 and the same lines of every function) *)
Definition ones_unless (n : nat) (o : option (list num)) : list num := dflt (repeat (Fin 1) n) o.
(** for i in trange(n): out[i] = calc_pdf(draw[i], rate[i], pop_frac[i]) (57-58, ...) *)
Fixpoint each_draw {D O} (f : D -> num -> num -> result O) (ds : list D) (rs fs : list num) : result (list O) :=
  match ds, rs, fs with
  | [], [], [] => Ok []
  | d :: ds, r :: rs, q :: fs => do o <- f d r q ; do os <- each_draw f ds rs fs ; Ok (o :: os)
  | _, _, _ => Err OtherError
  end.
Definition all_draws {D O} (f : D -> num -> num -> result O) (ds : list D) (rate pop_frac : option (list num)) : result (list O) :=
  each_draw f ds (ones_unless (length ds) rate) (ones_unless (length ds) pop_frac).

(** r * f * p / trapezoid(p, xs) (146, 170, 203-204, 230-233) *)
Definition spin_curve (p xs : list num) (r f : num) : list num := let n := ntrapz p xs in map (fun v => r * f * v / n) p.
(** r * p * frac / trapezoid(p, xs) (51-52, 82-83, 121-122) *)
Definition mass_curve (p xs : list num) (r frac : num) : list num := let n := ntrapz p xs in map (fun v => r * v * frac / n) p.

(** M, Q = jnp.meshgrid(ms, qs), flattened row by row: one row per q *)
Definition mesh_m (ms qs : list num) : list num := flat_map (fun _ => ms) qs.
Definition mesh_q (ms qs : list num) : list num := flat_map (fun q => map (fun _ => q) ms) qs.
(** the rows of a flattened (k, n) array *)
Definition rows_of (k n : nat) (p : list num) : list (list num) := map (fun i => firstn n (skipn (i * n) p)) (seq 0 k).
(** trapezoid(p, qs, axis=0) and trapezoid(p, ms, axis=1) *)
Definition trapz_axis0 (rows : list (list num)) (n : nat) (qs : list num) : list num := map (fun j => ntrapz (map (fun row => nth j row NaN) rows) qs) (seq 0 n).
Definition trapz_axis1 (rows : list (list num)) (ms : list num) : list num := map (fun row => ntrapz row ms) rows.
(** lines 49-53, 80-84, 119-123: marginals of the masked joint density and their curves *)
Definition mass_curves (ms qs p_mq : list num) (r frac : num) : list num * list num :=
  let rows := rows_of (length qs) (length ms) p_mq in
  let p_m := trapz_axis0 rows (length ms) qs in
  let p_q := trapz_axis1 rows ms in
  (mass_curve p_m ms r frac, mass_curve p_q qs r frac).
(** jnp.where(jnp.greater(Q, mmin / M), p_MQ, 0.0) *)
Definition mask_above (mmin : num) (M Q p : list num) : list num := map2 (fun mq v => nwhere (ngt (snd mq) (mmin / fst mq)) v (Fin 0)) (combine M Q) p.

Definition curves : Type := list (list num).
(** calculate_bspline_mass_ppds (20-60) *)
Definition calculate_bspline_mass_ppds (n_m n_q : nat) (mmin mmax : num) (draws : list (list num * list num)) (rate pop_frac : option (list num))
  : result (curves * list num * curves * list num) :=
  let ms := nlinspace mmin mmax PPD_POINTS in
  let qs := nlinspace (mmin / mmax) (Fin 1) PPD_POINTS in
  let M := mesh_m ms qs in let Q := mesh_q ms qs in
  do model <- primary_ratio (Opts None None None None None None) (Opts None None None None None None) n_m n_q M ms Q qs mmax mmin mmin ;
  do os <- all_draws (fun d r frac => do p <- primary_ratio_call model (fst d) (snd d) true ; Ok (mass_curves ms qs (mask_above mmin M Q p) r frac)) draws rate pop_frac ;
  Ok (map fst os, ms, map snd os, qs).
(** calculate_powerlaw_peak_mass_ppds (63-91); a draw is (alpha, beta, mu_peak, sig_peak, lamb) *)
Definition calculate_powerlaw_peak_mass_ppds (mmin mmax : num) (draws : list (num * num * num * num * num)) (rate pop_frac : option (list num))
  : result (curves * list num * curves * list num) :=
  let ms := nlinspace mmin mmax PPD_POINTS in
  let qs := nlinspace (mmin / mmax) (Fin 1) PPD_POINTS in
  let M := mesh_m ms qs in let Q := mesh_q ms qs in
  do os <- all_draws (fun '(a, b, mp, sigp, lam) r frac =>
      Ok (mass_curves ms qs (mask_above mmin M Q (map2 (fun m q => plpeak_primary_ratio_pdf m q a b mmin mmax mp sigp lam None) M Q)) r frac)) draws rate pop_frac ;
  Ok (map fst os, ms, map snd os, qs).
(** calculate_peak_logm1_bspline_q_ppds (94-130); a draw is (logmp, logsigp, q_cs) *)
Definition calculate_peak_logm1_bspline_q_ppds (n_q : nat) (mmin mmax : num) (draws : list (num * num * list num)) (rate pop_frac : option (list num))
  : result (curves * list num * curves * list num) :=
  let ms := nlinspace mmin mmax PPD_POINTS in
  let qs := nlinspace (mmin / mmax) (Fin 1) PPD_POINTS in
  let M := mesh_m ms qs in let Q := mesh_q ms qs in
  do q_model <- ratio_model (mmin / mmax) (Opts (Some KLogY) None None None None None) n_q Q qs ;
  do os <- all_draws (fun '(logmp, logsigp, q_cs) r frac =>
      do p_q <- m1d_call q_model q_cs true ;
      do p_mq <- product p_q (map (fun m => truncnorm_pdf m logmp logsigp mmin mmax true) M) ;
      let p_mq := map2 (fun mq v => nwhere (nlt (fst mq) mmin || nlt (fst mq * snd mq) mmin) (Fin 0) v) (combine M Q) p_mq in
      Ok (mass_curves ms qs p_mq r frac)) draws rate pop_frac ;
  Ok (map fst os, ms, map snd os, qs).
(** calculate_beta_spin_mag (133-154); a draw is (alpha_a, beta_a); [betaln] as in [betadist] *)
Definition calculate_beta_spin_mag (betaln : num -> num -> num) (amax : num) (draws : list (num * num)) (rate pop_frac : option (list num)) : result (curves * list num) :=
  let aa := nlinspace (Fin 0) amax PPD_POINTS in
  do os <- all_draws (fun d r f => Ok (spin_curve (map (fun x => betadist betaln x (fst d) (snd d) amax (Fin 0)) aa) aa r f)) draws rate pop_frac ;
  Ok (os, aa).
(** calculate_mixture_iso_aligned_spin_tilt (157-178); a draw is (sig_ct, lambda_ct) *)
Definition calculate_mixture_iso_aligned_spin_tilt (draws : list (num * num)) (rate pop_frac : option (list num)) : result (curves * list num) :=
  let ct := nlinspace (Fin (-1)) (Fin 1) PPD_POINTS in
  do os <- all_draws (fun d r f => Ok (spin_curve (map (fun x => mixture_isoalign_spin_tilt x (snd d) (fst d)) ct) ct r f)) draws rate pop_frac ;
  Ok (os, ct).
(** calculate_bspline_spin_ppds (181-241), first branch (a2_cs is None, 191-212); a draw is (a_cs, ct_cs) *)
Definition calculate_bspline_spin_ppds_iid (n_a n_tilt : nat) (draws : list (list num * list num)) (rate pop_frac : option (list num))
  : result (curves * list num * curves * list num) :=
  let aa := nlinspace (Fin 0) (Fin 1) PPD_POINTS in
  let cc := nlinspace (Fin (-1)) (Fin 1) PPD_POINTS in
  let o := Opts (Some KLogY) None None None None (Some true) in
  do mag <- iid_spin_magnitudes o n_a aa aa aa aa ;
  do tilt <- iid_spin_tilts o n_tilt cc cc cc cc ;
  do os <- all_draws (fun d r f =>
      do p_a <- m1d_call (fst mag) (fst d) true ; do p_ct <- m1d_call (fst tilt) (snd d) true ;
      Ok (spin_curve p_a aa r f, spin_curve p_ct cc r f)) draws rate pop_frac ;
  Ok (map fst os, aa, map snd os, cc).
(** second branch (214-241); a draw is (a1_cs, tilt1_cs, a2_cs, tilt2_cs), and the four results of calc_pdf are
    (P_a1, P_ct1, P_a2, P_ct2) *)
Definition calculate_bspline_spin_ppds_independent (n_a1 n_a2 n_tilt1 n_tilt2 : nat) (draws : list (list num * list num * list num * list num)) (rate pop_frac : option (list num))
  : result (curves * curves * list num * curves * curves * list num) :=
  let aa := nlinspace (Fin 0) (Fin 1) PPD_POINTS in
  let cc := nlinspace (Fin (-1)) (Fin 1) PPD_POINTS in
  let o := Opts None None None None None (Some true) in
  do mag <- independent_spin_magnitudes o o n_a1 n_a2 aa aa aa aa ;
  do tilt <- independent_spin_tilts o o n_tilt1 n_tilt2 cc cc cc cc ;
  do os <- all_draws (fun '(a1, t1, a2, t2) r f =>
      do p_a1 <- m1d_call (fst mag) a1 true ; do p_ct1 <- m1d_call (fst tilt) t1 true ;
      do p_a2 <- m1d_call (snd mag) a2 true ; do p_ct2 <- m1d_call (snd tilt) t2 true ;
      Ok (spin_curve p_a1 aa r f, spin_curve p_ct1 cc r f, spin_curve p_a2 aa r f, spin_curve p_ct2 cc r f)) draws rate pop_frac ;
  Ok (map (fun o => fst (fst (fst o))) os, map (fun o => snd (fst o)) os, aa, map (fun o => snd (fst (fst o))) os, map snd os, cc).

(** calculate_powerlaw_rate_of_z_ppds (244-258): rate is required *)
Definition calculate_powerlaw_rate_of_z_ppds (z_model : zmodel) (lamb rate : list num) (pop_frac : option (list num)) : result (curves * list num) :=
  let zs := zm_zs z_model in
  do os <- each_draw (fun la r f => Ok (map (fun z => r * f * npow (Fin 1 + z) la) zs)) lamb rate (ones_unless (length lamb) pop_frac) ;
  Ok (os, zs).
(** calculate_powerlaw_spline_rate_of_z_ppds (261-276); a draw is (lamb, z_cs); z_model is a PowerlawSplineRedshiftModel *)
Definition calculate_powerlaw_spline_rate_of_z_ppds (m : plz_model) (draws : list (num * list num)) (rate : list num) (pop_frac : option (list num)) : result (curves * list num) :=
  let zs := zm_zs (y_z m) in
  do os <- each_draw (fun d r f =>
      let cs := Fin 0 :: snd d in
      do e <- project (y_sp m) (y_norm m) cs ;
      Ok (map2 (fun z v => r * f * npow (Fin 1 + z) (fst d) * nexp v) zs e)) draws rate (ones_unless (length draws) pop_frac) ;
  Ok (os, zs).
