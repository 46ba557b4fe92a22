(** Property theorems C08-C13 (gwinferno/models/parametric/parametric.py). *)
From Verif Require Import PParametric PParametric2.
Open Scope R_scope.

(** C08: the marginal of m1 is the normalised power law of C01 *)
Theorem C08_joint_powerlaw : forall alpha beta mmin mmax, 0 < mmin < mmax ->
  exists g,
  joint_density_on
    (fun m1 q => powerlaw_primary_ratio_pdf (Fin m1) (Fin q) (Fin alpha) (Fin beta) (Fin mmin) (Fin mmax))
    mmin mmax (fun m1 => mmin / m1) (fun _ => 1) g /\
  (forall m1, mmin <= m1 <= mmax -> powerlaw_pdf (Fin m1) (Fin alpha) (Fin mmin) (Fin mmax) (Fin 0) = Fin (g m1)).
Proof. exact (fun a b l h H => ex_intro _ _ (conj (pl_ratio_joint a b l h H) (fun m Hm => powerlaw_pdf_in m a l h (Fin 0) H Hm))). Qed.
Print Assumptions C08_joint_powerlaw.
Theorem C08_joint_powerlaw_support : forall m1 q alpha beta mmin mmax, 0 < mmin < mmax -> 0 < m1 ->
  (m1 < mmin \/ mmax < m1 \/ 1 < q \/ q * m1 < mmin) ->
  powerlaw_primary_ratio_pdf (Fin m1) (Fin q) (Fin alpha) (Fin beta) (Fin mmin) (Fin mmax) = Fin 0.
Proof. exact pl_ratio_support. Qed.
Print Assumptions C08_joint_powerlaw_support.
(** given m1, the mass ratio follows q^beta *)
Theorem C08_joint_powerlaw_q_shape : forall alpha beta mmin mmax m1, 0 < mmin < m1 -> m1 <= mmax ->
  proportional_on
    (fun q => powerlaw_primary_ratio_pdf (Fin m1) (Fin q) (Fin alpha) (Fin beta) (Fin mmin) (Fin mmax))
    (fun q => Rpower q beta) (mmin / m1) 1.
Proof. exact pl_ratio_shape_q. Qed.
Print Assumptions C08_joint_powerlaw_q_shape.
Example C08_case : 0 < 5 < 100 /\ 0 < 3 /\ (3 < 5 \/ 100 < 3 \/ 1 < 1/2 \/ 1/2 * 3 < 5). Proof. lra. Qed.

(** C09 *)
Theorem C09_plpeak_normalised : forall alpha mmin mmax mpp sigpp lam, 0 < mmin < mmax -> 0 < sigpp -> 0 <= lam <= 1 ->
  density_on (fun m1 => plpeak_primary_pdf (Fin m1) (Fin alpha) (Fin mmin) (Fin mmax) (Fin mpp) (Fin sigpp) (Fin lam) None)
    mmin mmax.
Proof. exact plpeak_density. Qed.
Print Assumptions C09_plpeak_normalised.
Theorem C09_plpeak_zero_outside : forall m1 alpha mmin mmax mpp sigpp lam, m1 < mmin \/ mmax < m1 ->
  plpeak_primary_pdf (Fin m1) alpha (Fin mmin) (Fin mmax) mpp sigpp (Fin lam) None = Fin 0.
Proof. exact plpeak_out. Qed.
Print Assumptions C09_plpeak_zero_outside.
Theorem C09_plpeak_mixture : forall m1 alpha mmin mmax mpp sigpp lam p n,
  powerlaw_pdf (Fin m1) (Fin alpha) (Fin mmin) (Fin mmax) (Fin 0) = Fin p ->
  truncnorm_pdf (Fin m1) (Fin mpp) (Fin sigpp) (Fin mmin) (Fin mmax) false = Fin n ->
  plpeak_primary_pdf (Fin m1) (Fin alpha) (Fin mmin) (Fin mmax) (Fin mpp) (Fin sigpp) (Fin lam) None
  = Fin ((1 - lam) * p + lam * n).
Proof. exact plpeak_mixture. Qed.
Print Assumptions C09_plpeak_mixture.
Theorem C09_plpeak_ratio_support : forall m1 q alpha beta mmin mmax mpp sigpp lam, 0 < mmin < mmax -> 0 < sigpp -> 0 < m1 ->
  (m1 < mmin \/ mmax < m1 \/ 1 < q \/ q * m1 < mmin) ->
  plpeak_primary_ratio_pdf (Fin m1) (Fin q) (Fin alpha) (Fin beta) (Fin mmin) (Fin mmax) (Fin mpp) (Fin sigpp) (Fin lam) None = Fin 0.
Proof. exact plpeak_ratio_support. Qed.
Print Assumptions C09_plpeak_ratio_support.
Theorem C09_plpeak_ratio_joint : forall alpha beta mmin mmax mpp sigpp lam, 0 < mmin < mmax -> 0 < sigpp -> 0 <= lam <= 1 ->
  exists g,
  joint_density_on
    (fun m1 q => plpeak_primary_ratio_pdf (Fin m1) (Fin q) (Fin alpha) (Fin beta) (Fin mmin) (Fin mmax) (Fin mpp) (Fin sigpp) (Fin lam) None)
    mmin mmax (fun m1 => mmin / m1) (fun _ => 1) g /\
  (forall m1, mmin <= m1 <= mmax ->
     plpeak_primary_pdf (Fin m1) (Fin alpha) (Fin mmin) (Fin mmax) (Fin mpp) (Fin sigpp) (Fin lam) None = Fin (g m1)).
Proof. exact plpeak_ratio_joint. Qed.
Print Assumptions C09_plpeak_ratio_joint.
(** the joint density is the mass-ratio power law on [mmin/m1,1] times the mixture *)
Theorem C09_plpeak_ratio_value : forall m1 q alpha beta mmin mmax mpp sigpp lam pq p n, 0 < m1 ->
  powerlaw_pdf (Fin q) (Fin beta) (Fin (mmin / m1)) (Fin 1) (Fin 0) = Fin pq ->
  powerlaw_pdf (Fin m1) (Fin alpha) (Fin mmin) (Fin mmax) (Fin 0) = Fin p ->
  truncnorm_pdf (Fin m1) (Fin mpp) (Fin sigpp) (Fin mmin) (Fin mmax) false = Fin n ->
  plpeak_primary_ratio_pdf (Fin m1) (Fin q) (Fin alpha) (Fin beta) (Fin mmin) (Fin mmax) (Fin mpp) (Fin sigpp) (Fin lam) None
  = Fin (pq * ((1 - lam) * p + lam * n)).
Proof. exact plpeak_ratio_value. Qed.
Print Assumptions C09_plpeak_ratio_value.
(** with a smoothing scale: the power law is tapered at m1, the peak is not, and the mass ratio is tapered at m2 = q m1 *)
Theorem C09_plpeak_smoothed : forall m1 alpha mmin mmax mpp sigpp lam d p n s1,
  powerlaw_pdf (Fin m1) (Fin alpha) (Fin mmin) (Fin mmax) (Fin 0) = Fin p ->
  truncnorm_pdf (Fin m1) (Fin mpp) (Fin sigpp) (Fin mmin) (Fin mmax) false = Fin n ->
  smooth (Fin d) (Fin m1) (Fin mmin) = Fin s1 ->
  plpeak_primary_pdf (Fin m1) (Fin alpha) (Fin mmin) (Fin mmax) (Fin mpp) (Fin sigpp) (Fin lam) (Some (Fin d))
  = Fin ((1 - lam) * p * s1 + lam * n).
Proof. exact plpeak_smooth_value. Qed.
Print Assumptions C09_plpeak_smoothed.
Theorem C09_plpeak_ratio_smoothed : forall m1 q alpha beta mmin mmax mpp sigpp lam d pq p n s1 s2, 0 < m1 ->
  powerlaw_pdf (Fin q) (Fin beta) (Fin (mmin / m1)) (Fin 1) (Fin 0) = Fin pq ->
  powerlaw_pdf (Fin m1) (Fin alpha) (Fin mmin) (Fin mmax) (Fin 0) = Fin p ->
  truncnorm_pdf (Fin m1) (Fin mpp) (Fin sigpp) (Fin mmin) (Fin mmax) false = Fin n ->
  smooth (Fin d) (Fin m1) (Fin mmin) = Fin s1 ->
  smooth (Fin d) (Fin (q * m1)) (Fin mmin) = Fin s2 ->
  plpeak_primary_ratio_pdf (Fin m1) (Fin q) (Fin alpha) (Fin beta) (Fin mmin) (Fin mmax) (Fin mpp) (Fin sigpp) (Fin lam)
    (Some (Fin d))
  = Fin (pq * s2 * ((1 - lam) * p * s1 + lam * n)).
Proof. exact plpeak_ratio_smooth_value. Qed.
Print Assumptions C09_plpeak_ratio_smoothed.
Example C09_smoothed_case : exists pq p n s1 s2,
  powerlaw_pdf (Fin (1/2)) (Fin 1) (Fin (5 / 20)) (Fin 1) (Fin 0) = Fin pq /\
  powerlaw_pdf (Fin 20) (Fin (-2)) (Fin 5) (Fin 100) (Fin 0) = Fin p /\
  truncnorm_pdf (Fin 20) (Fin 35) (Fin 5) (Fin 5) (Fin 100) false = Fin n /\
  smooth (Fin 30) (Fin 20) (Fin 5) = Fin s1 /\ smooth (Fin 30) (Fin (1/2 * 20)) (Fin 5) = Fin s2.
Proof.
  do 5 eexists. repeat split.
  - apply powerlaw_pdf_in; lra.
  - apply powerlaw_pdf_in; lra.
  - apply truncnorm_pdf_in; lra.
  - apply smooth_fin; lra.
  - apply smooth_fin; lra.
Qed.
Example C09_case : 0 < 5 < 100 /\ 0 < 5 /\ 0 <= 1/10 <= 1. Proof. lra. Qed.

(** C10 *)
Theorem C10_tilt_mixture : forall xi sig, 0 <= xi <= 1 -> 0 < sig ->
  density_on (fun ct => mixture_isoalign_spin_tilt (Fin ct) (Fin xi) (Fin sig)) (-1) 1 /\
  zero_outside (fun ct => mixture_isoalign_spin_tilt (Fin ct) (Fin xi) (Fin sig)) (-1) 1 /\
  (forall ct n, -1 <= ct <= 1 -> truncnorm_pdf (Fin ct) (Fin 1) (Fin sig) (Fin (-1)) (Fin 1) false = Fin n ->
     mixture_isoalign_spin_tilt (Fin ct) (Fin xi) (Fin sig) = Fin ((1 - xi) * (1/2) + xi * n)).
Proof. exact tilt_all. Qed.
Print Assumptions C10_tilt_mixture.
Example C10_case : 0 <= 3/4 <= 1 /\ 0 < 1/2. Proof. lra. Qed.

(** C11 *)
Theorem C11_independent_tilts : forall xi1 sig1 xi2 sig2, 0 <= xi1 <= 1 -> 0 <= xi2 <= 1 -> 0 < sig1 -> 0 < sig2 ->
  exists g, joint_density_on (fun x y => independent_spin_tilt (Fin x) (Fin y) (Fin xi1) (Fin xi2) (Fin sig1) (Fin sig2))
     (-1) 1 (fun _ => -1) (fun _ => 1) g.
Proof. exact independent_tilt_joint. Qed.
Print Assumptions C11_independent_tilts.
(** each component keeps its own mixing fraction and width *)
Theorem C11_independent_value : forall c1 c2 xi1 xi2 sig1 sig2 n1 n2,
  -1 <= c1 <= 1 -> -1 <= c2 <= 1 -> 0 < sig1 -> 0 < sig2 ->
  truncnorm_pdf (Fin c1) (Fin 1) (Fin sig1) (Fin (-1)) (Fin 1) false = Fin n1 ->
  truncnorm_pdf (Fin c2) (Fin 1) (Fin sig2) (Fin (-1)) (Fin 1) false = Fin n2 ->
  independent_spin_tilt (Fin c1) (Fin c2) (Fin xi1) (Fin xi2) (Fin sig1) (Fin sig2)
  = Fin (((1 - xi1) * (1/2) + xi1 * n1) * ((1 - xi2) * (1/2) + xi2 * n2)).
Proof. exact independent_tilt_value. Qed.
Print Assumptions C11_independent_value.
Theorem C11_iid_tilts : forall c1 c2 xi sig,
  iid_spin_tilt c1 c2 xi sig = iid_spin_tilt c2 c1 xi sig /\
  independent_spin_tilt c1 c2 xi xi sig sig = iid_spin_tilt c1 c2 xi sig.
Proof. exact tilt_symm. Qed.
Print Assumptions C11_iid_tilts.
Theorem C11_default_tilts : forall xi sig, 0 <= xi <= 1 -> 0 < sig ->
  exists g,
  joint_density_on (fun c1 c2 => default_spin_tilt (Fin c1) (Fin c2) (Fin xi) (Fin sig))
    (-1) 1 (fun _ => -1) (fun _ => 1) g /\
  (forall ct, -1 <= ct <= 1 -> mixture_isoalign_spin_tilt (Fin ct) (Fin xi) (Fin sig) = Fin (g ct)).
Proof. exact (fun xi sig H K => ex_intro _ _ (conj (default_tilt_joint xi sig H K) (fun ct Hc => tilt_in ct xi sig K Hc))). Qed.
Print Assumptions C11_default_tilts.
(** both spins are isotropic or both are aligned: the mixture is of the joint densities *)
Theorem C11_default_value : forall c1 c2 xi sig n1 n2, -1 <= c1 <= 1 -> -1 <= c2 <= 1 -> 0 < sig ->
  truncnorm_pdf (Fin c1) (Fin 1) (Fin sig) (Fin (-1)) (Fin 1) false = Fin n1 ->
  truncnorm_pdf (Fin c2) (Fin 1) (Fin sig) (Fin (-1)) (Fin 1) false = Fin n2 ->
  default_spin_tilt (Fin c1) (Fin c2) (Fin xi) (Fin sig) = Fin ((1 - xi) * (1/4) + xi * (n1 * n2)).
Proof. exact default_tilt_value. Qed.
Print Assumptions C11_default_value.
Theorem C11_default_zero_outside : forall c1 c2 xi sig, 0 < sig -> c1 < -1 \/ 1 < c1 \/ c2 < -1 \/ 1 < c2 ->
  default_spin_tilt (Fin c1) (Fin c2) (Fin xi) (Fin sig) = Fin 0.
Proof. exact default_tilt_out. Qed.
Print Assumptions C11_default_zero_outside.
Theorem C11_default_symmetric : forall c1 c2 xi sig,
  default_spin_tilt (Fin c1) (Fin c2) (Fin xi) sig = default_spin_tilt (Fin c2) (Fin c1) (Fin xi) sig.
Proof. exact default_tilt_symm. Qed.
Print Assumptions C11_default_symmetric.
Example C11_case : 0 <= 1/2 <= 1 /\ 0 <= 1 <= 1 /\ 0 < 2. Proof. lra. Qed.

(** C12 *)
Theorem C12_spin_magnitudes : forall betaln a1 a2 al be amax,
  iid_spin_magnitude betaln a1 a2 al be amax
  = (beta_spin_magnitude betaln a1 al be amax * beta_spin_magnitude betaln a2 al be amax)%num /\
  iid_spin_magnitude betaln a1 a2 al be amax = iid_spin_magnitude betaln a2 a1 al be amax /\
  independent_spin_magnitude_beta_dist betaln a1 a2 al be al be amax amax = iid_spin_magnitude betaln a1 a2 al be amax.
Proof. exact iid_mag_props. Qed.
Print Assumptions C12_spin_magnitudes.
Theorem C12_independent_magnitudes_joint : forall betaln a1 b1 s1 l1 a2 b2 s2 l2,
  0 < s1 -> 0 < s2 -> 1 < a1 -> 1 < b1 -> 1 < a2 -> 1 < b2 ->
  betaln (Fin a1) (Fin b1) = Fin l1 -> beta_integral a1 b1 (exp l1) ->
  betaln (Fin a2) (Fin b2) = Fin l2 -> beta_integral a2 b2 (exp l2) ->
  exists g, joint_density_on (fun x y => independent_spin_magnitude_beta_dist betaln (Fin x) (Fin y)
        (Fin a1) (Fin b1) (Fin a2) (Fin b2) (Fin s1) (Fin s2)) 0 s1 (fun _ => 0) (fun _ => s2) g.
Proof. exact independent_mag_joint. Qed.
Print Assumptions C12_independent_magnitudes_joint.
(** inside the support, each component has its own shapes and maximum *)
Theorem C12_independent_value : forall betaln x y a1 b1 s1 l1 a2 b2 s2 l2,
  betaln (Fin a1) (Fin b1) = Fin l1 -> betaln (Fin a2) (Fin b2) = Fin l2 -> 0 < x < s1 -> 0 < y < s2 ->
  independent_spin_magnitude_beta_dist betaln (Fin x) (Fin y) (Fin a1) (Fin b1) (Fin a2) (Fin b2) (Fin s1) (Fin s2)
  = Fin (beta_density a1 b1 s1 (exp l1) x * beta_density a2 b2 s2 (exp l2) y).
Proof. exact independent_mag_in. Qed.
Print Assumptions C12_independent_value.
Theorem C12_iid_value : forall betaln x y a b s l,
  betaln (Fin a) (Fin b) = Fin l -> 0 < x < s -> 0 < y < s ->
  iid_spin_magnitude betaln (Fin x) (Fin y) (Fin a) (Fin b) (Fin s)
  = Fin (beta_density a b s (exp l) x * beta_density a b s (exp l) y).
Proof. exact iid_mag_in. Qed.
Print Assumptions C12_iid_value.
Example C12_case : exists lnB, beta_integral 2 2 (exp lnB).
Proof. exists (ln (1/6)). rewrite exp_ln by lra. exact beta_integral_22. Qed.

(** C13 *)
Theorem C13_redshift_model : forall dVcdz v p0 pe i0 inj lamb,
  let a := Rmax (fold_left Rmin pe p0) (fold_left Rmin inj i0) in
  let b := Rmin (fold_left Rmax pe p0) (fold_left Rmax inj i0) in
  let m := redshift_model_init dVcdz (Fin p0) (map Fin pe) (Fin i0) (map Fin inj) in
  -1 < a -> a < b ->
  (forall z, a <= z <= b -> dVcdz (Fin z) = Fin (v z) /\ 0 <= v z /\ (a < z -> 0 < v z)) ->
  ntrapz (map (fun z => redshift_call m z (dVcdz z) (Fin lamb)) (zm_zs m)) (zm_zs m) = Fin 1 /\
  (forall z dv, -1 < z <= b -> 0 < dv ->
     exists p, redshift_call m (Fin z) (Fin dv) (Fin lamb) = Fin p /\ 0 < p /\
               redshift_log_prob m (Fin z) (Fin dv) (Fin lamb) = Fin (ln p)) /\
  (forall z dv, b < z -> redshift_call m (Fin z) dv (Fin lamb) = Fin 0 /\
                         redshift_log_prob m (Fin z) dv (Fin lamb) = Fin (- FMAX)).
Proof. exact redshift_model_all. Qed.
Print Assumptions C13_redshift_model.
(** the grid spans the overlap of the posterior samples and the injections *)
Theorem C13_redshift_grid : forall dVcdz p0 pe i0 inj,
  let a := Rmax (fold_left Rmin pe p0) (fold_left Rmin inj i0) in
  let b := Rmin (fold_left Rmax pe p0) (fold_left Rmax inj i0) in
  let m := redshift_model_init dVcdz (Fin p0) (map Fin pe) (Fin i0) (map Fin inj) in
  zm_min m = Fin a /\ zm_max m = Fin b /\ zm_zs m = nlinspace (Fin a) (Fin b) 1000 /\ zm_dV m = map dVcdz (zm_zs m).
Proof. exact redshift_grid. Qed.
Print Assumptions C13_redshift_grid.
Theorem C13_redshift_shape : forall m z1 z2 d1 d2 lamb p1 p2, -1 < z1 -> -1 < z2 ->
  nle (Fin z1) (zm_max m) = true -> nle (Fin z2) (zm_max m) = true ->
  redshift_call m (Fin z1) (Fin d1) (Fin lamb) = Fin p1 ->
  redshift_call m (Fin z2) (Fin d2) (Fin lamb) = Fin p2 ->
  p1 * (d2 * Rpower (1 + z2) (lamb - 1)) = p2 * (d1 * Rpower (1 + z1) (lamb - 1)).
Proof. exact redshift_shape. Qed.
Print Assumptions C13_redshift_shape.
(** the density is not cut below zmin *)
Theorem C13_redshift_below_zmin_refuted : forall dVcdz : num -> num,
  (forall z, 0 < z -> exists v, 0 < v /\ dVcdz (Fin z) = Fin v) ->
  exists z lamb p,
    let m := redshift_model_init dVcdz (Fin 1) [Fin 2] (Fin 1) [Fin 2] in
    nlt (Fin z) (zm_min m) = true /\ 0 < p /\
    redshift_call m (Fin z) (dVcdz (Fin z)) (Fin lamb) = Fin p.
Proof. exact redshift_below_refuted. Qed.
Print Assumptions C13_redshift_below_zmin_refuted.
Example C13_case : let a := Rmax (fold_left Rmin [1] (1/2)) (fold_left Rmin [2] 0) in
  let b := Rmin (fold_left Rmax [1] (1/2)) (fold_left Rmax [2] 0) in -1 < a /\ a < b.
Proof. cbn. unfold Rmin, Rmax. repeat destruct Rle_dec; lra. Qed.
