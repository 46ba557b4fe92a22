(** Properties C35-C41 and C100: the B-spline population models and the power-law-times-spline models. *)
From Verif Require Import PBSplines PSplinePert PSplinePert2 PSplineValue PSplineEval SpecBSplines SpecCurve SpecEval.
From Verif Require Import PBSplineBuild SpecBuild.
From Verif Require Import Spec.
Open Scope R_scope.

(** C35 *)
Theorem C35_model_by_sample : forall basis range o n xx inj m coefs pe, finite_range range o -> make_m1d basis range o n xx inj = Ok m -> (1 <= n)%nat -> length coefs = n ->
  exists ps, m1d_call m coefs pe = Ok ps /\ length ps = length (samples xx inj pe) /\
    forall i, (i < length (samples xx inj pe))%nat -> density_at basis range o n coefs (nth i (samples xx inj pe) NaN) (nth i ps NaN).
Proof. exact model_1d. Qed.
Print Assumptions C35_model_by_sample.
(** which basis and which domain each named model has by default *)
Theorem C35_named_models :
  density_by_sample spin_magnitude KLogY (Fin 0, Fin 1) /\
  density_by_sample spin_tilt KLogY (Fin (-1), Fin 1) /\
  density_by_sample chi_effective KB (Fin (-1), Fin 1) /\
  density_by_sample chi_precess KB (Fin 0, Fin 1) /\
  (forall qmin, density_by_sample (ratio_model qmin) KLogY (qmin, Fin 1)) /\
  (forall mmin mmax, density_by_sample (mass_model mmin mmax) KLogXLogY (mmin, mmax)).
Proof. repeat split; intros; exact (fun o n xx inj m coefs pe => model_1d _ _ o n xx inj m coefs pe). Qed.
Print Assumptions C35_named_models.
Theorem C35_wrong_number_of_coefficients : forall basis range o n xx inj m coefs pe, make_m1d basis range o n xx inj = Ok m -> length coefs <> n -> m1d_call m coefs pe = Err ValueError.
Proof. exact m1d_bad. Qed.
Print Assumptions C35_wrong_number_of_coefficients.
Example C35_case : finite_range (Fin 0, Fin 1) no_opts /\ (exists m, spin_magnitude no_opts 6 [Fin (1/2); NaN; Fin 2; PInf] [Fin (1/3)] = Ok m) /\
  inside 0 1 (Fin (1/2)) /\ ~ inside 0 1 (Fin 2) /\ ~ inside 0 1 NaN.
Proof.
  split; [exists 0, 1; reflexivity|]. split.
  - unfold spin_magnitude, make_m1d. cbn [dflt no_opts o_range o_basis o_degree o_knots o_interior o_normalize]. change (3 + 1)%nat with 4%nat.
    destruct (make_default KLogY 6 4 0 1 true ltac:(lia)) as (sp & E & _); [split; [lra|discriminate]|]. cbn [default_normalize]. rewrite E. cbn [rbind]. eauto.
  - split; [exists (1/2); split; auto; lra|]. split; [intros (v & E & H); injection E as <-; lra|intros (v & E & H); discriminate].
Qed.

(** with the knots left to the class, the model is built exactly when there are more splines than the degree *)
Theorem C35_built_exactly_when : forall basis range o n xx inj, own_range basis range o -> (built (make_m1d basis range o n xx inj) <-> enough o n).
Proof. exact build_1d. Qed.
Print Assumptions C35_built_exactly_when.
Example C35_built_case : own_range KLogY (Fin 0, Fin 1) no_opts /\ enough no_opts 4 /\ ~ enough no_opts 3 /\ ~ own_range KLogXLogY (Fin 0, Fin 100) no_opts.
Proof.
  split; [|split; [unfold enough; cbn; lia|split; [unfold enough; cbn; lia|]]].
  - split; [reflexivity|]. split; [reflexivity|]. exists 0, 1. split; [reflexivity|]. split; [lra|discriminate].
  - intros (_ & _ & lo & hi & E & _ & V). injection E as <- <-. specialize (V eq_refl). lra.
Qed.

(** C36 *)
Theorem C36_symmetric : forall o n xs ys inj inj' m m' coefs pe, symmetric_chi_effective o n xs inj = Ok m -> symmetric_chi_effective o n ys inj' = Ok m' ->
  map nabs xs = map nabs ys -> map nabs inj = map nabs inj' -> symmetric_call m coefs pe = symmetric_call m' coefs pe.
Proof. exact symmetric. Qed.
Print Assumptions C36_symmetric.
Theorem C36_half_density : forall o n xs inj m coefs pe, finite_range (Fin 0, Fin 1) o -> symmetric_chi_effective o n xs inj = Ok m -> (1 <= n)%nat -> length coefs = n ->
  exists ps, symmetric_call m coefs pe = Ok ps /\ length ps = length (samples xs inj pe) /\
    forall i, (i < length (samples xs inj pe))%nat -> exists p, density_at KB (Fin 0, Fin 1) o n coefs (nabs (nth i (samples xs inj pe) NaN)) p /\ nth i ps NaN = nmul (Fin (1 / 2)) p.
Proof. exact symmetric_half. Qed.
Print Assumptions C36_half_density.
Example C36_case : map nabs [Fin (1/2); Fin (-(1/4))] = map nabs [Fin (-(1/2)); Fin (1/4)] /\ exists m, symmetric_chi_effective no_opts 6 [Fin (1/2); Fin (-(1/4))] [Fin 0] = Ok m.
Proof.
  split; [cbn; rewrite !Rabs_Ropp; reflexivity|].
  unfold symmetric_chi_effective, make_m1d. cbn [dflt no_opts o_range o_basis o_degree o_knots o_interior o_normalize default_normalize]. change (3 + 1)%nat with 4%nat.
  destruct (make_default KB 6 4 0 1 false ltac:(lia)) as (sp & E & _); [split; [lra|discriminate]|]. rewrite E. cbn [rbind]. eauto.
Qed.

(** C37: with an unnormalised linear basis the rate is one function of redshift with unit trapezoid sum on the model's grid, evaluated at the samples *)
Theorem C37_unit_integral_partial : forall dVcdz v s deg n lo hi p0 pe i0 inj dVdc dVdc_inj m coefs sel,
  s = KB \/ s = KLogX -> (deg + 1 <= n)%nat -> valid_range s lo hi -> good_redshifts s dVcdz v p0 pe i0 inj ->
  dVdc = map dVcdz (map Fin (p0 :: pe)) -> dVdc_inj = map dVcdz (map Fin (i0 :: inj)) ->
  make_redshift dVcdz (Fin hi) (Opts (Some s) (Some (Fin lo, Fin hi)) (Some deg) None None (Some false)) n (Fin p0) (map Fin pe) (Fin i0) (map Fin inj) dVdc dVdc_inj = Ok m ->
  length coefs = n ->
  exists rate, redshift_rate m (map Fin coefs) sel = Ok (map Fin (map rate (all_samples p0 pe i0 inj sel))) /\
    let grid := rlinspace (grid_lo p0 pe i0 inj) (grid_hi p0 pe i0 inj) 1000 in trapezoid grid (map rate grid) = 1.
Proof.
  intros dVcdz v s deg n lo hi p0 pe i0 inj dVdc dVdc_inj m coefs sel Hs Hn HR (G1 & G2 & G3 & G4 & G5 & G6) D1 D2 HM HC.
  destruct (redshift_unnormalised dVcdz v s deg n lo hi p0 pe i0 inj dVdc dVdc_inj Hs Hn HR G1 G2 G3 G4 G5 (G6 _ (conj (proj2 G1) (Rle_refl _))) (conj D1 D2) m coefs sel HM HC) as (rate & E & U & _). exists rate. auto.
Qed.
Print Assumptions C37_unit_integral_partial.
(** outside the spline's range the rate is positive, not zero *)
Theorem C37_outside_range_refuted : forall dVcdz v s deg n lo hi p0 pe i0 inj dVdc dVdc_inj m coefs sel i z ps,
  s = KB \/ s = KLogX -> (deg + 1 <= n)%nat -> valid_range s lo hi -> good_redshifts s dVcdz v p0 pe i0 inj ->
  dVdc = map dVcdz (map Fin (p0 :: pe)) -> dVdc_inj = map dVcdz (map Fin (i0 :: inj)) ->
  make_redshift dVcdz (Fin hi) (Opts (Some s) (Some (Fin lo, Fin hi)) (Some deg) None None (Some false)) n (Fin p0) (map Fin pe) (Fin i0) (map Fin inj) dVdc dVdc_inj = Ok m ->
  length coefs = n -> redshift_rate m (map Fin coefs) sel = Ok ps ->
  (i < length (all_samples p0 pe i0 inj sel))%nat -> z = nth i (all_samples p0 pe i0 inj sel) 0 -> z < lo \/ hi < z -> 0 < v z -> exists r, nth i ps NaN = Fin r /\ 0 < r.
Proof.
  intros dVcdz v s deg n lo hi p0 pe i0 inj dVdc dVdc_inj m coefs sel i z ps Hs Hn HR (G1 & G2 & G3 & G4 & G5 & G6) D1 D2 HM HC HP Hi EZ HO PV.
  destruct (redshift_unnormalised dVcdz v s deg n lo hi p0 pe i0 inj dVdc dVdc_inj Hs Hn HR G1 G2 G3 G4 G5 (G6 _ (conj (proj2 G1) (Rle_refl _))) (conj D1 D2) m coefs sel HM HC) as (rate & E & _ & P & _).
  rewrite HP in E. apply Ok_inj in E. rewrite E, map_map. rewrite (PBSplines.nth_map' _ _ _ _ 0) by auto. rewrite <- EZ. eexists. split; [reflexivity|].
  assert (IZ : In z (all_samples p0 pe i0 inj sel)) by (rewrite EZ; apply nth_In; auto). apply P; auto.
  - intros L. destruct (G2 L) as (_ & F1 & F2). rewrite Forall_forall in F1, F2. destruct sel; auto.
  - destruct G3 as [F1 F2]. rewrite Forall_forall in F1, F2. destruct sel; auto.
Qed.
Print Assumptions C37_outside_range_refuted.
(** with the default (normalised) basis and all coefficients equal to c the integral is exp(1/(zmax - 1e-4) - c) instead of one *)
Theorem C37_default_basis_refuted : forall dVcdz v zmax n p0 pe i0 inj dVdc dVdc_inj m c sel, let lo := 1 / 10 ^ 4 in
  (4 <= n)%nat -> lo < zmax -> wide_range KLogX n 4 lo zmax -> good_redshifts KLogX dVcdz v p0 pe i0 inj ->
  dVdc = map dVcdz (map Fin (p0 :: pe)) -> dVdc_inj = map dVcdz (map Fin (i0 :: inj)) ->
  lo <= grid_lo p0 pe i0 inj -> grid_hi p0 pe i0 inj <= zmax -> c <> 0 -> (forall z, In z (all_samples p0 pe i0 inj sel) -> lo <= z <= zmax) ->
  make_redshift dVcdz (Fin zmax) no_opts n (Fin p0) (map Fin pe) (Fin i0) (map Fin inj) dVdc dVdc_inj = Ok m ->
  exists rate, redshift_rate m (map Fin (repeat c n)) sel = Ok (map Fin (map rate (all_samples p0 pe i0 inj sel))) /\
    let grid := rlinspace (grid_lo p0 pe i0 inj) (grid_hi p0 pe i0 inj) 1000 in trapezoid grid (map rate grid) = exp (1 / (zmax - lo) - c).
Proof.
  intros dVcdz v zmax n p0 pe i0 inj dVdc dVdc_inj m c sel lo Hn HZ HW (G1 & G2 & G3 & G4 & G5 & G6) D1 D2 HL HH Hc HI HM.
  assert (HR : valid_range KLogX lo zmax) by (split; [auto|intros _; unfold lo; lra]).
  exact (redshift_normalised_off dVcdz v KLogX 3 n lo zmax p0 pe i0 inj dVdc dVdc_inj (or_intror eq_refl) Hn HR G1 G2 G3 G4 G5 (G6 _ (conj (proj2 G1) (Rle_refl _))) (conj D1 D2) m c sel ltac:(lia) HW HL HH Hc HI HM).
Qed.
Print Assumptions C37_default_basis_refuted.
Example C37_case : good_redshifts KLogX (fun x => x) (fun z => z) (1/2) [1] (1/4) [2] /\ 1/10^4 <= grid_lo (1/2) [1] (1/4) [2] /\ grid_hi (1/2) [1] (1/4) [2] <= 23/10.
Proof.
  unfold good_redshifts, grid_lo, grid_hi. cbn [fold_left].
  rewrite (Rmin_left (1/2) 1), (Rmin_left (1/4) 2), (Rmax_right (1/2) 1), (Rmax_right (1/4) 2), (Rmax_left (1/2) (1/4)), (Rmin_left 1 2) by lra.
  repeat split; try (repeat constructor; lra); try (intros; lra).
Qed.

Theorem C37_built_exactly_when : forall dVcdz zmax o n z0 z i0 zi dV dVi, own_range KLogX (Fin (1 / 10 ^ 4), zmax) o ->
  (built (make_redshift dVcdz zmax o n z0 z i0 zi dV dVi) <-> enough o n).
Proof. exact build_redshift. Qed.
Print Assumptions C37_built_exactly_when.
Example C37_built_case : own_range KLogX (Fin (1 / 10 ^ 4), Fin (23/10)) no_opts.
Proof. split; [reflexivity|]. split; [reflexivity|]. exists (1/10^4), (23/10). split; [reflexivity|]. split; [lra|intros _; lra]. Qed.

(** C38 *)
Theorem C38_iid_product : forall (tilts : bool) o n x1 x2 i1 i2 ms coefs pe, let lo := if tilts then -1 else 0 in finite_range (Fin lo, Fin 1) o ->
  (if tilts then iid_spin_tilts else iid_spin_magnitudes) o n x1 x2 i1 i2 = Ok ms ->
  (1 <= n)%nat -> length coefs = n -> length (samples x1 i1 pe) = length (samples x2 i2 pe) ->
  exists ps, iid_call (fst ms) (snd ms) coefs pe = Ok ps /\ length ps = length (samples x1 i1 pe) /\
    forall i, (i < length (samples x1 i1 pe))%nat -> exists p q, density_at KLogY (Fin lo, Fin 1) o n coefs (nth i (samples x1 i1 pe) NaN) p /\
       density_at KLogY (Fin lo, Fin 1) o n coefs (nth i (samples x2 i2 pe) NaN) q /\ nth i ps NaN = nmul p q.
Proof. exact iid_product. Qed.
Print Assumptions C38_iid_product.
Theorem C38_independent_magnitudes_product : forall o1 o2 n1 n2 a1 a2 i1 i2 ms c1 c2 pe, finite_range (Fin 0, Fin 1) o1 -> finite_range (Fin 0, Fin 1) o2 ->
  independent_spin_magnitudes o1 o2 n1 n2 a1 a2 i1 i2 = Ok ms ->
  (1 <= n1)%nat -> (1 <= n2)%nat -> length c1 = n1 -> length c2 = n2 -> length (samples a1 i1 pe) = length (samples a2 i2 pe) ->
  exists ps, pair_call (fst ms) (snd ms) c1 c2 pe = Ok ps /\ length ps = length (samples a1 i1 pe) /\
    forall i, (i < length (samples a1 i1 pe))%nat -> exists p q, density_at KLogY (Fin 0, Fin 1) o1 n1 c1 (nth i (samples a1 i1 pe) NaN) p /\
       density_at KLogY (Fin 0, Fin 1) o2 n2 c2 (nth i (samples a2 i2 pe) NaN) q /\ nth i ps NaN = nmul p q.
Proof. exact magnitudes_product. Qed.
Print Assumptions C38_independent_magnitudes_product.
Theorem C38_independent_tilts_product : forall o1 o2 n1 n2 a1 a2 i1 i2 ms c1 c2 pe, finite_range (Fin (-1), Fin 1) o1 -> finite_range (Fin (-1), Fin 1) o2 ->
  independent_spin_tilts o1 o2 n1 n2 a1 a2 i1 i2 = Ok ms ->
  (1 <= n1)%nat -> (1 <= n2)%nat -> length c1 = n1 -> length c2 = n2 -> length (samples a1 i1 pe) = length (samples a2 i2 pe) ->
  exists ps, pair_call (fst ms) (snd ms) c1 c2 pe = Ok ps /\ length ps = length (samples a1 i1 pe) /\
    forall i, (i < length (samples a1 i1 pe))%nat -> exists p q, density_at KLogY (Fin (-1), Fin 1) o1 n1 c1 (nth i (samples a1 i1 pe) NaN) p /\
       density_at KLogY (Fin (-1), Fin 1) o2 n2 c2 (nth i (samples a2 i2 pe) NaN) q /\ nth i ps NaN = nmul p q.
Proof. exact tilts_product. Qed.
Print Assumptions C38_independent_tilts_product.
Theorem C38_effective_spins_product : forall o1 o2 n1 n2 e p ei pi ms c1 c2 pe, finite_range (Fin (-1), Fin 1) o1 -> finite_range (Fin 0, Fin 1) o2 ->
  effective_spin_dims o1 o2 n1 n2 e p ei pi = Ok ms ->
  (1 <= n1)%nat -> (1 <= n2)%nat -> length c1 = n1 -> length c2 = n2 -> length (samples e ei pe) = length (samples p pi pe) ->
  exists ps, pair_call (fst ms) (snd ms) c1 c2 pe = Ok ps /\ length ps = length (samples e ei pe) /\
    forall i, (i < length (samples e ei pe))%nat -> exists u w, density_at KB (Fin (-1), Fin 1) o1 n1 c1 (nth i (samples e ei pe) NaN) u /\
       density_at KB (Fin 0, Fin 1) o2 n2 c2 (nth i (samples p pi pe) NaN) w /\ nth i ps NaN = nmul u w.
Proof. exact effective_product. Qed.
Print Assumptions C38_effective_spins_product.
Theorem C38_primary_ratio_product : forall o1 o2 n1 n2 m1 m1i q qi mmax m1min m2min ms c1 c2 pe,
  finite_range (m1min, mmax) o1 -> finite_range (ndiv m2min mmax, Fin 1) o2 -> primary_ratio o1 o2 n1 n2 m1 m1i q qi mmax m1min m2min = Ok ms ->
  (1 <= n1)%nat -> (1 <= n2)%nat -> length c1 = n1 -> length c2 = n2 -> length (samples m1 m1i pe) = length (samples q qi pe) ->
  exists ps, primary_ratio_call ms c1 c2 pe = Ok ps /\ length ps = length (samples m1 m1i pe) /\
    forall i, (i < length (samples m1 m1i pe))%nat -> exists p r, density_at KLogXLogY (m1min, mmax) o1 n1 c1 (nth i (samples m1 m1i pe) NaN) p /\
       density_at KLogY (ndiv m2min mmax, Fin 1) o2 n2 c2 (nth i (samples q qi pe) NaN) r /\ nth i ps NaN = nmul r p.
Proof. exact primary_ratio_product. Qed.
Print Assumptions C38_primary_ratio_product.
Theorem C38_primary_powerlaw_product : forall mlo mhi o n m1 m1i q qi m beta mmin coefs pe, finite_range (mlo, mhi) o -> mass_model mlo mhi o n m1 m1i = Ok m ->
  (1 <= n)%nat -> length coefs = n -> length (samples q qi pe) = length (samples m1 m1i pe) ->
  exists ps, primary_powerlaw_call m (samples m1 m1i pe) (samples q qi pe) beta mmin coefs pe = Ok ps /\ length ps = length (samples m1 m1i pe) /\
    forall i, (i < length (samples m1 m1i pe))%nat -> exists p, density_at KLogXLogY (mlo, mhi) o n coefs (nth i (samples m1 m1i pe) NaN) p /\
      nth i ps NaN = nmul p (powerlaw_pdf (nth i (samples q qi pe) NaN) beta (ndiv mmin (nth i (samples m1 m1i pe) NaN)) (Fin 1) (Fin 0)).
Proof. exact primary_powerlaw_points. Qed.
Print Assumptions C38_primary_powerlaw_product.
Theorem C38_plpeak_ratio_product : forall qmin o n q qi m m1 alpha mmin mmax mpp sigpp lam coefs pe, finite_range (qmin, Fin 1) o -> ratio_model qmin o n q qi = Ok m ->
  (1 <= n)%nat -> length coefs = n -> length m1 = length (samples q qi pe) ->
  exists ps, plpeak_ratio_call m m1 alpha mmin mmax mpp sigpp lam coefs pe = Ok ps /\ length ps = length m1 /\
    forall i, (i < length m1)%nat -> exists p, density_at KLogY (qmin, Fin 1) o n coefs (nth i (samples q qi pe) NaN) p /\
      nth i ps NaN = nmul p (plpeak_primary_pdf (nth i m1 NaN) alpha mmin mmax mpp sigpp lam None).
Proof. exact plpeak_ratio_points. Qed.
Print Assumptions C38_plpeak_ratio_product.
(** component masses: the product of the two spline densities and (m2/m1)^beta; the IID model cuts q outside [0,1] *)
Theorem C38_component_masses_product : forall (iid : bool) o1 o2 n1 n2 a1 b1 a2 b2 x1 x2 i1 i2 m c1 c2 beta pe,
  finite_range (a1, b1) o1 -> finite_range (a2, b2) o2 -> independent_component_masses o1 o2 n1 n2 a1 b1 a2 b2 x1 x2 i1 i2 = Ok m -> (iid = true -> c1 = c2) ->
  (1 <= n1)%nat -> (1 <= n2)%nat -> length c1 = n1 -> length c2 = n2 -> length (samples x1 i1 pe) = length (samples x2 i2 pe) ->
  exists ps, (if iid then iid_masses_call m c1 beta pe else independent_masses_call m c1 c2 beta pe) = Ok ps /\ length ps = length (samples x1 i1 pe) /\
    forall i, (i < length (samples x1 i1 pe))%nat -> exists p q, density_at KLogXLogY (a1, b1) o1 n1 c1 (nth i (samples x1 i1 pe) NaN) p /\
       density_at KLogXLogY (a2, b2) o2 n2 c2 (nth i (samples x2 i2 pe) NaN) q /\
       let r := ndiv (nth i (samples x2 i2 pe) NaN) (nth i (samples x1 i1 pe) NaN) in
       nth i ps NaN = nmul (if iid then nwhere (nlt r (Fin 0) || ngt r (Fin 1)) (Fin 0) (nmul p q) else nmul p q) (npow r beta).
Proof. exact components_points. Qed.
Print Assumptions C38_component_masses_product.
Theorem C38_magnitudes_exchange : forall o n a1 a2 i1 i2 ms ms' coefs pe, iid_spin_magnitudes o n a1 a2 i1 i2 = Ok ms -> iid_spin_magnitudes o n a2 a1 i2 i1 = Ok ms' -> (1 <= n)%nat ->
  iid_call (fst ms) (snd ms) coefs pe = iid_call (fst ms') (snd ms') coefs pe.
Proof. exact iid_magnitudes_exchange. Qed.
Print Assumptions C38_magnitudes_exchange.
Theorem C38_tilts_exchange : forall o n a1 a2 i1 i2 ms ms' coefs pe, iid_spin_tilts o n a1 a2 i1 i2 = Ok ms -> iid_spin_tilts o n a2 a1 i2 i1 = Ok ms' -> (1 <= n)%nat ->
  iid_call (fst ms) (snd ms) coefs pe = iid_call (fst ms') (snd ms') coefs pe.
Proof. exact iid_tilts_exchange. Qed.
Print Assumptions C38_tilts_exchange.
Theorem C38_iid_masses_ordered : forall o n a b x1 x2 i1 i2 m coefs beta pe ps i m1 m2, finite_range (a, b) o -> iid_component_masses o n a b x1 x2 i1 i2 = Ok m ->
  (1 <= n)%nat -> length coefs = n -> length (samples x1 i1 pe) = length (samples x2 i2 pe) -> iid_masses_call m coefs (Fin beta) pe = Ok ps ->
  (i < length (samples x1 i1 pe))%nat -> nth i (samples x1 i1 pe) NaN = Fin m1 -> nth i (samples x2 i2 pe) NaN = Fin m2 -> 0 < m1 < m2 -> nth i ps NaN = Fin 0.
Proof. exact iid_masses_zero. Qed.
Print Assumptions C38_iid_masses_ordered.
(** the independent component-mass model does not vanish where m2 > m1: it is positive at every such sample in range *)
Theorem C38_independent_masses_ordered_refuted : forall n1 n2 a1 b1 a2 b2 x1 x2 i1 i2 m c1 c2 beta pe ps i m1 m2,
  valid_range KLogXLogY a1 b1 -> wide_range KLogXLogY n1 4 a1 b1 -> valid_range KLogXLogY a2 b2 -> wide_range KLogXLogY n2 4 a2 b2 ->
  independent_component_masses no_opts no_opts n1 n2 (Fin a1) (Fin b1) (Fin a2) (Fin b2) x1 x2 i1 i2 = Ok m ->
  (4 <= n1)%nat -> (4 <= n2)%nat -> length c1 = n1 -> length c2 = n2 -> (forall v, In v c1 -> - FMAX < v) -> (forall v, In v c2 -> - FMAX < v) ->
  length (samples x1 i1 pe) = length (samples x2 i2 pe) -> independent_masses_call m (map Fin c1) (map Fin c2) (Fin beta) pe = Ok ps ->
  (i < length (samples x1 i1 pe))%nat -> nth i (samples x1 i1 pe) NaN = Fin m1 -> nth i (samples x2 i2 pe) NaN = Fin m2 -> a1 <= m1 <= b1 -> a2 <= m2 <= b2 -> m1 < m2 ->
  exists v, nth i ps NaN = Fin v /\ 0 < v.
Proof. exact independent_masses_positive. Qed.
Print Assumptions C38_independent_masses_ordered_refuted.
Example C38_case : exists m ps, independent_component_masses no_opts no_opts 4 4 (Fin 1) (Fin 3) (Fin 1) (Fin 3) [Fin 1] [Fin 2] [] [] = Ok m /\
  valid_range KLogXLogY 1 3 /\ wide_range KLogXLogY 4 4 1 3 /\ independent_masses_call m (map Fin [0; 0; 0; 0]) (map Fin [0; 0; 0; 0]) (Fin 1) true = Ok ps.
Proof.
  assert (VR : valid_range KLogXLogY 1 3) by (split; [lra|intros; lra]).
  destruct (make_default KLogXLogY 4 4 1 3 true ltac:(lia) VR) as (sp & E & _).
  assert (M : exists m, independent_component_masses no_opts no_opts 4 4 (Fin 1) (Fin 3) (Fin 1) (Fin 3) [Fin 1] [Fin 2] [] [] = Ok m).
  { unfold independent_component_masses, mass_model, make_m1d. cbn [dflt no_opts o_range o_basis o_degree o_knots o_interior o_normalize default_normalize]. change (3 + 1)%nat with 4%nat. rewrite E. cbn [rbind]. eauto. }
  destruct M as [m M]. exists m.
  assert (FR : finite_range (Fin 1, Fin 3) no_opts) by (exists 1, 3; reflexivity).
  destruct (components_points false no_opts no_opts 4 4 (Fin 1) (Fin 3) (Fin 1) (Fin 3) [Fin 1] [Fin 2] [] [] m (map Fin [0;0;0;0]) (map Fin [0;0;0;0]) (Fin 1) true FR FR M) as (ps & P & _); try lia; auto.
  exists ps. split; auto. split; auto. split; auto.
  unfold wide_range, coord. cbn [logx]. rewrite ln_1. change (4 + 1 - 4)%nat with 1%nat. cbn [INR].
  assert (1 <= ln 3). { rewrite <- (ln_exp 1). apply ln_le'; [apply exp_pos|]. pose proof exp_le_3. lra. } lra.
Qed.

(** which arguments each separable class accepts: more splines than the degree, in each dimension *)
Theorem C38_built_exactly_when : forall o1 o2 n1 n2 x1 x2 i1 i2,
  (own_range KLogY (Fin 0, Fin 1) o1 -> own_range KLogY (Fin 0, Fin 1) o2 -> (built (independent_spin_magnitudes o1 o2 n1 n2 x1 x2 i1 i2) <-> enough o1 n1 /\ enough o2 n2)) /\
  (own_range KLogY (Fin (-1), Fin 1) o1 -> own_range KLogY (Fin (-1), Fin 1) o2 -> (built (independent_spin_tilts o1 o2 n1 n2 x1 x2 i1 i2) <-> enough o1 n1 /\ enough o2 n2)) /\
  (own_range KB (Fin (-1), Fin 1) o1 -> own_range KB (Fin 0, Fin 1) o2 -> (built (effective_spin_dims o1 o2 n1 n2 x1 x2 i1 i2) <-> enough o1 n1 /\ enough o2 n2)) /\
  (own_range KLogY (Fin 0, Fin 1) o1 -> (built (iid_spin_magnitudes o1 n1 x1 x2 i1 i2) <-> enough o1 n1)) /\
  (own_range KLogY (Fin (-1), Fin 1) o1 -> (built (iid_spin_tilts o1 n1 x1 x2 i1 i2) <-> enough o1 n1)) /\
  (forall mmax m1min m2min, own_range KLogXLogY (m1min, mmax) o1 -> own_range KLogY (ndiv m2min mmax, Fin 1) o2 ->
     (built (primary_ratio o1 o2 n1 n2 x1 i1 x2 i2 mmax m1min m2min) <-> enough o1 n1 /\ enough o2 n2)) /\
  (forall a1 b1 a2 b2, own_range KLogXLogY (a1, b1) o1 -> own_range KLogXLogY (a2, b2) o2 ->
     (built (independent_component_masses o1 o2 n1 n2 a1 b1 a2 b2 x1 x2 i1 i2) <-> enough o1 n1 /\ enough o2 n2)) /\
  (forall a b, own_range KLogXLogY (a, b) o1 -> (built (iid_component_masses o1 n1 a b x1 x2 i1 i2) <-> enough o1 n1)).
Proof. exact build_pairs. Qed.
Print Assumptions C38_built_exactly_when.
Example C38_built_case : own_range KLogXLogY (Fin 5, Fin 100) no_opts /\ own_range KLogY (ndiv (Fin 5) (Fin 100), Fin 1) no_opts /\ own_range KB (Fin (-1), Fin 1) no_opts.
Proof.
  unfold own_range. cbn [o_knots o_interior no_opts dflt o_range o_basis]. rewrite ndiv_fin by lra.
  split; [|split]; (split; [reflexivity|]; split; [reflexivity|]); [exists 5, 100|exists (5/100), 1|exists (-1), 1]; (split; [reflexivity|]; split; [lra|intros E; try discriminate; lra]).
Qed.

(** C39 *)
Theorem C39_smoothing_window : forall mmin delta, 0 <= delta -> exists w : R -> R, (forall m, smoothing (Fin m) (Fin mmin) (Fin delta) = Fin (w m)) /\
  (forall m, m <= mmin -> w m = 0) /\ (forall m, mmin < m -> mmin + delta <= m -> w m = 1) /\
  (forall m, 0 <= w m <= 1) /\ (forall m m', m <= m' -> w m <= w m') /\ (forall m m', mmin < m -> m < m' -> m' < mmin + delta -> w m < w m').
Proof. exact smoothing_window. Qed.
Print Assumptions C39_smoothing_window.
Theorem C39_unit_integral_partial : forall n m1pe m1inj mmin m2min mmax d alpha lo hi coefs sel, (4 <= n)%nat -> 0 < mmin < mmax -> Forall (fun m => 0 < m) m1pe -> Forall (fun m => 0 < m) m1inj ->
  make_plsp KB false n (map Fin m1pe) (map Fin m1inj) (Fin mmin) m2min (Fin mmax) 4 = Ok d -> length coefs = n -> 0 < lo < hi -> 
  (exists m, In m (rlinspace mmin mmax 1000) /\ lo <= m <= hi) ->
  exists p, plsp_p_m1 d (map Fin (m1_samples m1pe m1inj sel)) sel (Fin alpha) (Fin lo) (Fin hi) (map Fin coefs) = Ok (map Fin (map p (m1_samples m1pe m1inj sel))) /\
    (forall m, 0 <= p m) /\ (forall m, m < lo \/ hi < m -> p m = 0) /\ trapezoid (rlinspace mmin mmax 1000) (map p (rlinspace mmin mmax 1000)) = 1.
Proof.
  intros n m1pe m1inj mmin m2min mmax d alpha lo hi coefs sel Hn HM P1 P2 HD HC HL HG.
  destruct (plsp_unit n m1pe m1inj mmin m2min mmax d alpha lo hi coefs sel Hn HM P1 P2 HD HC HL HG) as (p & H1 & H2 & H3 & H4 & _). eauto 6.
Qed.
Print Assumptions C39_unit_integral_partial.
(** any basis class and normalisation: wherever the spline has values on the grid and at the samples *)
Theorem C39_any_basis : forall s normalize n m1pe m1inj mmin m2min mmax d alpha lo hi coefs sel k grid_values sample_values, 0 < mmin < mmax ->
  make_plsp s normalize n (map Fin m1pe) (map Fin m1inj) (Fin mmin) m2min (Fin mmax) k = Ok d -> 0 < lo < hi -> (exists m, In m (rlinspace mmin mmax 1000) /\ lo <= m <= hi) ->
  eval (l_sp d) (map nlog (map Fin (rlinspace mmin mmax 1000))) coefs = Ok (map Fin (map grid_values (rlinspace mmin mmax 1000))) ->
  eval (l_sp d) (map nlog (map Fin (m1_samples m1pe m1inj sel))) coefs = Ok (map Fin (map sample_values (m1_samples m1pe m1inj sel))) ->
  exists T pl, 0 < T /\ (forall m, powerlaw_pdf (Fin m) (Fin (- alpha)) (Fin lo) (Fin hi) (Fin 0) = Fin (pl m)) /\
    plsp_p_m1 d (map Fin (m1_samples m1pe m1inj sel)) sel (Fin alpha) (Fin lo) (Fin hi) coefs = Ok (map Fin (map (fun m => pl m * exp (sample_values m) / T) (m1_samples m1pe m1inj sel))) /\
    trapezoid (rlinspace mmin mmax 1000) (map (fun m => pl m * exp (grid_values m) / T) (rlinspace mmin mmax 1000)) = 1.
Proof. exact plsp_unit_any. Qed.
Print Assumptions C39_any_basis.
Theorem C39_spline_order_refuted : forall s normalize n m1pe m1inj mmin m2min mmax k, 0 < mmin -> 0 < mmax -> (k <= n)%nat -> k <> 4%nat ->
  make_plsp s normalize n m1pe m1inj (Fin mmin) m2min (Fin mmax) k = Err AssertionError.
Proof. exact wrong_order. Qed.
Print Assumptions C39_spline_order_refuted.
(** the mass model is built exactly when the order is four and there are at least four splines, whatever the basis class *)
Theorem C39_built_exactly_when : forall s normalize n m1pe m1inj mmin m2min mmax k, 0 < mmin -> 0 < mmax ->
  (built (make_plsp s normalize n m1pe m1inj (Fin mmin) m2min (Fin mmax) k) <-> k = 4%nat /\ (4 <= n)%nat).
Proof. exact build_plsp. Qed.
Print Assumptions C39_built_exactly_when.
Example C39_case : In 5 (rlinspace 5 100 1000) /\ exists d, make_plsp KB false 10 [Fin 7] [Fin 8] (Fin 5) (Fin 3) (Fin 100) 4 = Ok d.
Proof.
  split.
  - rewrite <- (rlinspace_first 5 100 1000) at 1; [apply nth_In; rewrite rlinspace_length|]; apply (Nat.leb_le 1 1000); reflexivity.
  - unfold make_plsp. rewrite !nlog_fin by lra. destruct (hand_make_gen (ln 5) (ln 100) (ln 5) (ln 100) 10 ltac:(lia)) as (ts & is & sp & -> & _ & E & _). cbn [rbind fst snd]. rewrite E. cbn [rbind]. eauto.
Qed.
Example C39_any_case : exists d g, make_plsp KB false 10 (map Fin [7]) (map Fin [8]) (Fin 5) (Fin 3) (Fin 100) 4 = Ok d /\ In 5 (rlinspace 5 100 1000) /\
  eval (l_sp d) (map nlog (map Fin (rlinspace 5 100 1000))) (map Fin (repeat 2 10)) = Ok (map Fin (map g (rlinspace 5 100 1000))) /\
  eval (l_sp d) (map nlog (map Fin (m1_samples [7] [8] true))) (map Fin (repeat 2 10)) = Ok (map Fin (map g (m1_samples [7] [8] true))).
Proof.
  destruct (plsp_values 10 [7] [8] 5 (Fin 3) 100 (repeat 2 10) ltac:(lia) ltac:(lra) eq_refl) as (d & g & E & V). exists d, g. split; [exact E|]. split; [apply C39_case|].
  split; apply V.
  - apply Forall_forall. intros x I. apply rlinspace_range in I; lra.
  - cbn. repeat constructor. lra.
Qed.

(** C40 *)
Theorem C40_constructor_refuted : forall n_m n_q m1pe qpe m1inj qinj mmin mmax k, exists e, make_pljoint n_m n_q m1pe qpe m1inj qinj mmin mmax k = Err e.
Proof. exact joint_fails. Qed.
Print Assumptions C40_constructor_refuted.
Theorem C40_attribute_error_refuted : forall n_m n_q m1pe qpe m1inj qinj mmin mmax, (4 <= n_m)%nat -> (4 <= n_q)%nat -> 0 < mmin < mmax ->
  make_pljoint n_m n_q m1pe qpe m1inj qinj (Fin mmin) (Fin mmax) 4 = Err AttributeError.
Proof. exact joint_attribute. Qed.
Print Assumptions C40_attribute_error_refuted.
Example C40_case : make_pljoint 10 8 [Fin 7] [Fin 1] [Fin 8] [Fin (1/2)] (Fin 5) (Fin 100) 4 = Err AttributeError.
Proof. apply C40_attribute_error_refuted; try lia; lra. Qed.

(** C41 *)
Theorem C41_redshift_density : forall dVcdz v s n p0 pe i0 inj m lamb coefs sel, s = KB \/ s = KLogX -> (4 <= n)%nat -> good_redshifts s dVcdz v p0 pe i0 inj ->
  make_plz_model dVcdz s n (Fin p0) (map Fin pe) (Fin i0) (map Fin inj) = Ok m -> length coefs = n ->
  let b := grid_hi p0 pe i0 inj in let grid := rlinspace (grid_lo p0 pe i0 inj) b 1000 in
  exists rate, plz_model_call m (map Fin (all_samples p0 pe i0 inj sel)) sel (Fin lamb) (map Fin coefs) =
      Ok (map Fin (map (fun z => if Rleb z b then rate z else 0) (all_samples p0 pe i0 inj sel))) /\
    (forall z, grid_lo p0 pe i0 inj <= z <= b -> 0 <= rate z) /\ trapezoid grid (map rate grid) = 1 /\
    (coefs = repeat 0 n -> forall z, In z (all_samples p0 pe i0 inj sel) ->
       redshift_call (redshift_model_init dVcdz (Fin p0) (map Fin pe) (Fin i0) (map Fin inj)) (Fin z) (dVcdz (Fin z)) (Fin lamb) = Fin (if Rleb z b then rate z else 0)).
Proof.
  intros dVcdz v s n p0 pe i0 inj m lamb coefs sel Hs Hn (G1 & G2 & G3 & G4 & G5 & G6) HM HC. cbv zeta.
  destruct (plz_call dVcdz v s n p0 pe i0 inj Hs Hn G1 G2 G3 G4 G5 G6 m lamb coefs sel HM HC) as (rate & H1 & H2 & H3 & H4 & _). exists rate. auto.
Qed.
Print Assumptions C41_redshift_density.
Theorem C41_zero_above_zmax : forall dVcdz s n p0 pe i0 inj m z e lamb coefs sel ps i x,
  make_plz_model dVcdz s n (Fin p0) (map Fin pe) (Fin i0) (map Fin inj) = Ok m ->
  plz_model_call m z sel lamb coefs = Ok ps -> (i < length ps)%nat -> nth i z e = Fin x -> grid_hi p0 pe i0 inj < x -> nth i ps NaN = Fin 0.
Proof. exact plz_above. Qed.
Print Assumptions C41_zero_above_zmax.
Theorem C41_built_exactly_when : forall dVcdz s n p0 pe i0 inj, valid_range s (grid_lo p0 pe i0 inj) (grid_hi p0 pe i0 inj) ->
  (built (make_plz_model dVcdz s n (Fin p0) (map Fin pe) (Fin i0) (map Fin inj)) <-> (4 <= n)%nat).
Proof. exact build_plz. Qed.
Print Assumptions C41_built_exactly_when.
(** any basis class: wherever the spline has values on the grid and at the samples *)
Theorem C41_any_basis : forall dVcdz v s n p0 pe i0 inj m lamb coefs sel grid_values sample_values, good_redshifts KB dVcdz v p0 pe i0 inj ->
  make_plz_model dVcdz s n (Fin p0) (map Fin pe) (Fin i0) (map Fin inj) = Ok m ->
  let b := grid_hi p0 pe i0 inj in let grid := rlinspace (grid_lo p0 pe i0 inj) b 1000 in let samples := all_samples p0 pe i0 inj sel in
  eval (y_sp m) (map Fin grid) coefs = Ok (map Fin (map grid_values grid)) -> eval (y_sp m) (map Fin samples) coefs = Ok (map Fin (map sample_values samples)) ->
  let f z := v z * Rpower (1 + z) (lamb - 1) in let T := trapezoid grid (map (fun z => f z * exp (grid_values z)) grid) in
  0 < T /\ plz_model_call m (map Fin samples) sel (Fin lamb) coefs = Ok (map Fin (map (fun z => if Rleb z b then f z * exp (sample_values z) / T else 0) samples)) /\
    trapezoid grid (map (fun z => f z * exp (grid_values z) / T) grid) = 1.
Proof. intros dVcdz v s n p0 pe i0 inj m lamb coefs sel g e (G1 & _ & G3 & G4 & G5 & G6) HM. exact (plz_any dVcdz v n p0 pe i0 inj G1 G3 G4 G5 G6 s m lamb coefs sel g e HM). Qed.
Print Assumptions C41_any_basis.
Example C41_case : good_redshifts KB (fun x => x) (fun z => z) (1/2) [1] (1/4) [2] /\ exists m, make_plz_model (fun x => x) KLogX 6 (Fin (1/2)) [Fin 1] (Fin (1/4)) [Fin 2] = Ok m.
Proof.
  destruct C37_case as ((G1 & G2 & G3 & G4 & G5 & G6) & _ & _). split; [unfold good_redshifts; repeat split; auto; try discriminate; try apply G1; try apply G3|].
  unfold make_plz_model. change [Fin 1] with (map Fin [1]). change [Fin 2] with (map Fin [2]). rewrite (redshift_init_fin (fun x => x) (1/2) [1] (1/4) [2]). cbn [zm_min zm_max zm_zs].
  destruct (make_default KLogX 6 4 (grid_lo (1/2) [1] (1/4) [2]) (grid_hi (1/2) [1] (1/4) [2]) false ltac:(lia)) as (sp & E & _).
  - split; [apply G1|]. intros L. apply (G2 L).
  - unfold grid_lo, grid_hi in E. rewrite E. cbn [rbind]. eauto.
Qed.
Example C41_any_case : exists m g, make_plz_model (fun x => x) KLogY 6 (Fin (1/2)) (map Fin [1]) (Fin (1/4)) (map Fin [2]) = Ok m /\
  forall xs, eval (y_sp m) (map Fin xs) (map Fin (repeat 0 6)) = Ok (map Fin (map g xs)).
Proof.
  destruct C37_case as ((G1 & _) & _ & _). pose proof (redshift_init_fin (fun x => x) (1/2) [1] (1/4) [2]) as RI. unfold make_plz_model. rewrite RI. cbn [zm_min zm_max zm_zs].
  set (a := grid_lo (1/2) [1] (1/4) [2]) in *. set (b := grid_hi (1/2) [1] (1/4) [2]) in *.
  assert (VR : valid_range KLogY a b) by (split; [apply G1|discriminate]).
  destruct (make_default KLogY 6 4 a b false ltac:(lia) VR) as (sp & E & _ & _ & _ & _ & _ & K & _).
  pose proof E as E0. unfold a, b, grid_lo, grid_hi in E. rewrite E. cbn [rbind]. clear E.
  eexists. exists (fun x => SpecEval.within a b x (exp (spline_sum (uniform a b 6 4) 4 (repeat 0 6) x))). split; [reflexivity|]. intros xs. cbn [y_sp].
  apply (log_value KLogY 6 4 None None a b sp (uniform a b 6 4) (repeat 0 6) xs); auto; try lia; try discriminate.
  - apply (uniform_spaced a b 6 4 ltac:(lia)). unfold a, b, grid_lo, grid_hi. cbn [fold_left]. rewrite (Rmin_left (1/2) 1), (Rmin_left (1/4) 2), (Rmax_right (1/2) 1), (Rmax_right (1/4) 2), (Rmax_left (1/2) (1/4)), (Rmin_left 1 2) by lra.
    change (6 + 1 - 4)%nat with 3%nat. cbn [INR]. lra.
  - apply Forall_forall. intros x _ _. unfold spline_sum. cbn [repeat length seq map nth]. unfold Rlsum. cbn [fold_right]. unfold FMAX. lra.
Qed.

(** C100: volume element over 1+z, times the exponential of the spline curve *)
Theorem C100_redshift_spline : forall dVcdz v s deg n lo hi p0 pe i0 inj dVdc dVdc_inj m coefs sel,
  s = KB \/ s = KLogX -> (deg + 1 <= n)%nat -> valid_range s lo hi -> wide_range s n (deg + 1) lo hi -> good_redshifts s dVcdz v p0 pe i0 inj ->
  dVdc = map dVcdz (map Fin (p0 :: pe)) -> dVdc_inj = map dVcdz (map Fin (i0 :: inj)) ->
  make_redshift dVcdz (Fin hi) (Opts (Some s) (Some (Fin lo, Fin hi)) (Some deg) None None (Some false)) n (Fin p0) (map Fin pe) (Fin i0) (map Fin inj) dVdc dVdc_inj = Ok m ->
  length coefs = n ->
  let grid := rlinspace (grid_lo p0 pe i0 inj) (grid_hi p0 pe i0 inj) 1000 in
  let g z := v z / (1 + z) * exp (curve (coord s lo) (coord s hi) n (deg + 1) coefs (coord s z)) in
  redshift_rate m (map Fin coefs) sel = Ok (map Fin (map (scaled_on grid g) (all_samples p0 pe i0 inj sel))).
Proof. exact redshift_value. Qed.
Print Assumptions C100_redshift_spline.
Theorem C100_powerlaw_redshift_spline : forall dVcdz v s n p0 pe i0 inj m lamb coefs sel, s = KB \/ s = KLogX -> (4 <= n)%nat -> good_redshifts s dVcdz v p0 pe i0 inj ->
  let a := grid_lo p0 pe i0 inj in let b := grid_hi p0 pe i0 inj in wide_range s n 4 a b ->
  make_plz_model dVcdz s n (Fin p0) (map Fin pe) (Fin i0) (map Fin inj) = Ok m -> length coefs = n ->
  let g z := v z * Rpower (1 + z) (lamb - 1) * exp (curve (coord s a) (coord s b) n 4 coefs (coord s z)) in
  plz_model_call m (map Fin (all_samples p0 pe i0 inj sel)) sel (Fin lamb) (map Fin coefs) =
    Ok (map Fin (map (fun z => if Rleb z b then scaled_on (rlinspace a b 1000) g z else 0) (all_samples p0 pe i0 inj sel))).
Proof. exact plz_value. Qed.
Print Assumptions C100_powerlaw_redshift_spline.
Theorem C100_powerlaw_mass_spline : forall n m1pe m1inj mmin m2min mmax d alpha lo hi coefs sel, (4 <= n)%nat -> 0 < mmin < mmax -> wide_range KLogX n 4 mmin mmax ->
  Forall (fun m => 0 < m) m1pe -> Forall (fun m => 0 < m) m1inj ->
  make_plsp KB false n (map Fin m1pe) (map Fin m1inj) (Fin mmin) m2min (Fin mmax) 4 = Ok d -> length coefs = n -> 0 < lo < hi -> 
  (exists m, In m (rlinspace mmin mmax 1000) /\ lo <= m <= hi) ->
  let g m := if (Rleb lo m && Rleb m hi)%bool then Rpower m (- alpha) * exp (curve (ln mmin) (ln mmax) n 4 coefs (ln m)) else 0 in
  plsp_p_m1 d (map Fin (m1_samples m1pe m1inj sel)) sel (Fin alpha) (Fin lo) (Fin hi) (map Fin coefs) =
    Ok (map Fin (map (scaled_on (rlinspace mmin mmax 1000) g) (m1_samples m1pe m1inj sel))).
Proof. exact plsp_value. Qed.
Print Assumptions C100_powerlaw_mass_spline.
(** the joint density: primary density times the power law of q on [m2min/m1, 1] *)
Theorem C100_mass_ratio_joint : forall s normalize n m1pe m1inj mmin m2min mmax k d m1 q sel alpha beta lo hi coefs ps,
  make_plsp s normalize n m1pe m1inj mmin m2min mmax k = Ok d -> length q = length m1 -> plsp_p_m1 d m1 sel alpha lo hi coefs = Ok ps ->
  exists rs, plsp_call d m1 q sel alpha beta lo hi coefs = Ok rs /\ length rs = length m1 /\
    forall i, (i < length m1)%nat -> nth i rs NaN = nmul (nth i ps NaN) (powerlaw_pdf (nth i q NaN) beta (ndiv m2min (nth i m1 NaN)) (Fin 1) (Fin 0)).
Proof. exact plsp_joint_made. Qed.
Print Assumptions C100_mass_ratio_joint.
Example C100_case : good_redshifts KLogX (fun x => x) (fun z => z) (1/2) [1] (1/4) [2] /\ wide_range KLogX 6 4 (grid_lo (1/2) [1] (1/4) [2]) (grid_hi (1/2) [1] (1/4) [2]) /\
  wide_range KLogX 10 4 5 100 /\ In 5 (rlinspace 5 100 1000) /\ curve 0 1 4 4 [1; 1; 1; 1] (1/2) = 1.
Proof.
  destruct C37_case as (G & _). split; auto. split; [|split; [|split; [apply C39_case|]]].
  - unfold wide_range, grid_lo, grid_hi, coord. cbn [fold_left logx]. 
    rewrite (Rmin_left (1/2) 1), (Rmin_left (1/4) 2), (Rmax_right (1/2) 1), (Rmax_right (1/4) 2), (Rmax_left (1/2) (1/4)), (Rmin_left 1 2) by lra.
    change (6 + 1 - 4)%nat with 3%nat. pose proof ln_half_gap. cbn [INR]. lra.
  - unfold wide_range, coord. cbn [logx]. change (10 + 1 - 4)%nat with 7%nat. pose proof ln_half_gap. assert (ln 5 + (ln 1 - ln (1/2)) <= ln 100).
    { rewrite <- ln_div by lra. rewrite <- ln_mult by lra. apply ln_le'; lra. } cbn [INR]. lra.
  - unfold curve, uniform_knot. rewrite !Rleb_t by lra. cbn [andb seq map Rlsum nth]. cbn [Bspline Nat.sub Nat.add INR].
    repeat (match goal with |- context [Rleb ?a ?b] => first [rewrite (Rleb_t a b) by lra | rewrite (Rleb_f a b) by lra] | |- context [Rltb ?a ?b] => first [rewrite (Rltb_t a b) by lra | rewrite (Rltb_f a b) by lra] end; cbn [andb]).
    unfold ratio. repeat (match goal with |- context [Reqb ?a ?b] => rewrite (Reqb_f a b) by lra end). field.
Qed.
