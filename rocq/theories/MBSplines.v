(** Model of gwinferno/models/bsplines/single.py, separable.py and gwinferno/models/spline_perturbation.py.
    Sample arrays are given flattened in row-major order: boolean indexing and the scatter .at[mask].set use that order.
    Samples, injections and everything combined element by element have equal lengths (broadcasting is not modelled: a
    mismatch is an error). *)
From Verif Require Export MSpline MDistributions MParametric.
Open Scope num_scope.

(** x[mask] *)
Fixpoint select {A} (mask : list bool) (l : list A) : list A :=
  match mask, l with b :: mask, x :: l => if b then x :: select mask l else select mask l | _, _ => [] end.
(** jnp.zeros(mask.shape).at[mask].set(values) *)
Fixpoint scatter (mask : list bool) (values : list num) : list num :=
  match mask with
  | [] => []
  | true :: m => match values with v :: vs => v :: scatter m vs | [] => NaN :: scatter m [] end
  | false :: m => Fin 0 :: scatter m values
  end.

(** Base1DBSplineModel (single.py:16-128) *)
Record m1d := M1D { d_sp : spline; d_valid : list bool; d_valid_inj : list bool; d_pe : list (list num); d_inj : list (list num) }.
Definition in_range (lo hi x : num) : bool := nge x lo && nle x hi.
(** the keyword arguments knots, interior_knots, normalize of the basis class; None when not given *)
Definition default_normalize (s : skind) : bool := match s with KB => false | _ => true end.
Record opts := Opts { o_basis : option skind; o_range : option (num * num); o_degree : option nat;
                      o_knots : option (list num); o_interior : option (list num); o_normalize : option bool }.
Definition dflt {A} (d : A) (o : option A) : A := match o with Some x => x | None => d end.
(** __init__ (35-58) of the base class with defaults for the basis and the range, as the subclasses supply them
    (single.py:131-396): each pops xrange from its keyword arguments. *)
Definition make_m1d (basis : skind) (range : num * num) (o : opts) (n_splines : nat) (xx xx_inj : list num) : result m1d :=
  let s := dflt basis (o_basis o) in
  let '(lo, hi) := dflt range (o_range o) in
  do sp <- make_spline s n_splines (dflt 3%nat (o_degree o) + 1) (o_knots o) (o_interior o) lo hi (dflt (default_normalize s) (o_normalize o)) ;
  let v := map (in_range lo hi) xx in
  let vi := map (in_range lo hi) xx_inj in
  Ok (M1D sp v vi (bases sp (select v xx)) (bases sp (select vi xx_inj))).
(** eval_spline (60-75), pe_pdf (77-92), inj_pdf (94-109), __call__ (111-128) *)
Definition pe_pdf (m : m1d) (coefs : list num) : result (list num) := do v <- project (d_sp m) (d_pe m) coefs ; Ok (scatter (d_valid m) v).
Definition inj_pdf (m : m1d) (coefs : list num) : result (list num) := do v <- project (d_sp m) (d_inj m) coefs ; Ok (scatter (d_valid_inj m) v).
Definition m1d_call (m : m1d) (coefs : list num) (pe_samples : bool) : result (list num) := if pe_samples then pe_pdf m coefs else inj_pdf m coefs.

(** BSplineSpinMagnitude (131-162), BSplineSpinTilt (165-196), BSplineChiEffective (199-230), BSplineChiPrecess (287-318),
    BSplineRatio (321-355), BSplineMass (358-395) *)
Definition spin_magnitude := make_m1d KLogY (Fin 0, Fin 1).
Definition spin_tilt := make_m1d KLogY (Fin (-1), Fin 1).
Definition chi_effective := make_m1d KB (Fin (-1), Fin 1).
Definition chi_precess := make_m1d KB (Fin 0, Fin 1).
Definition ratio_model (qmin : num) := make_m1d KLogY (qmin, Fin 1).
Definition mass_model (mmin mmax : num) := make_m1d KLogXLogY (mmin, mmax).
(** BSplineSymmetricChiEffective (233-284) *)
Definition symmetric_chi_effective (o : opts) (n : nat) (x x_inj : list num) : result m1d := make_m1d KB (Fin 0, Fin 1) o n (map nabs x) (map nabs x_inj).
Definition symmetric_call (m : m1d) (coefs : list num) (pe_samples : bool) : result (list num) :=
  do p <- m1d_call m coefs pe_samples ; Ok (map (fun v => Fin (1 / 2) * v) p).

(** BSplineRedshift (398-492).  [dVcdz] is Planck15.dVcdz; sample arrays are non-empty, given as head and tail. *)
Record mz := MZ { r_model : m1d; r_grid : list num; r_dV : list num; r_bases : list (list num); r_z : list num; r_zinj : list num; r_dVdc : list num; r_dVdc_inj : list num }.
Definition make_redshift (dVcdz : num -> num) (zmax : num) (o : opts) (n : nat) (z0 : num) (z : list num) (i0 : num) (z_inj : list num) (dVdc dVdc_inj : list num) : result mz :=
  do m <- make_m1d KLogX (Fin (1 / 10 ^ 4), zmax) o n (z0 :: z) (i0 :: z_inj) ;
  let lo := nmax (nminl z0 z) (nminl i0 z_inj) in
  let hi := nmin (nmaxl z0 z) (nmaxl i0 z_inj) in
  let grid := nlinspace lo hi 1000 in
  Ok (MZ m grid (map dVcdz grid) (bases (d_sp m) grid) (z0 :: z) (i0 :: z_inj) dVdc dVdc_inj).
(** normalization (453-469) *)
Definition z_normalization (m : mz) (cs : list num) : result num :=
  do e <- einsum (r_bases m) cs ;
  Ok (ntrapz (map2 nmul (map2 (fun d z => d / (Fin 1 + z)) (r_dV m) (r_grid m)) (map nexp e)) (r_grid m)).
(** __call__ (471-492), the division by 1+z coming after the product with the volume *)
Definition redshift_rate (m : mz) (coefs : list num) (pe_samples : bool) : result (list num) :=
  do p <- m1d_call (r_model m) coefs pe_samples ;
  do n <- z_normalization m coefs ;
  let '(dv, z) := if pe_samples then (r_dVdc m, r_z m) else (r_dVdc_inj m, r_zinj m) in
  Ok (map (fun v => v / n) (map2 (fun w zz => w / (Fin 1 + zz)) (map2 (fun v d => nexp v * d) p dv) z)).

(** ** separable.py *)
(** p1 * p2 *)
Definition product (p1 p2 : list num) : result (list num) := if Nat.eqb (length p1) (length p2) then Ok (map2 nmul p1 p2) else Err TypeError.
Definition pair_call (m1 m2 : m1d) (c1 c2 : list num) (pe_samples : bool) : result (list num) :=
  do p1 <- m1d_call m1 c1 pe_samples ; do p2 <- m1d_call m2 c2 pe_samples ; product p1 p2.
(** BSplineIIDSpinMagnitudes (17-79), BSplineIIDSpinTilts (156-218): two models built with the same arguments *)
Definition iid_call (m1 m2 : m1d) (coefs : list num) (pe_samples : bool) : result (list num) := pair_call m1 m2 coefs coefs pe_samples.
Definition iid_spin_magnitudes (o : opts) (n : nat) (a1 a2 a1_inj a2_inj : list num) : result (m1d * m1d) :=
  do m1 <- spin_magnitude o n a1 a1_inj ; do m2 <- spin_magnitude o n a2 a2_inj ; Ok (m1, m2).
Definition iid_spin_tilts (o : opts) (n : nat) (c1 c2 c1_inj c2_inj : list num) : result (m1d * m1d) :=
  do m1 <- spin_tilt o n c1 c1_inj ; do m2 <- spin_tilt o n c2 c2_inj ; Ok (m1, m2).
(** BSplineIndependentSpinMagnitudes (82-153), BSplineIndependentSpinTilts (221-292), BSplineEffectiveSpinDims (706-778).
    [o1], [o2] are the keyword arguments after merging kwargs1 / kwargs2 with kwargs (a name in both is a TypeError in Python). *)
Definition independent_spin_magnitudes (o1 o2 : opts) (n1 n2 : nat) (a1 a2 a1_inj a2_inj : list num) : result (m1d * m1d) :=
  do m1 <- spin_magnitude o1 n1 a1 a1_inj ; do m2 <- spin_magnitude o2 n2 a2 a2_inj ; Ok (m1, m2).
Definition independent_spin_tilts (o1 o2 : opts) (n1 n2 : nat) (c1 c2 c1_inj c2_inj : list num) : result (m1d * m1d) :=
  do m1 <- spin_tilt o1 n1 c1 c1_inj ; do m2 <- spin_tilt o2 n2 c2 c2_inj ; Ok (m1, m2).
Definition effective_spin_dims (o1 o2 : opts) (n1 n2 : nat) (e p e_inj p_inj : list num) : result (m1d * m1d) :=
  do m1 <- chi_effective o1 n1 e e_inj ; do m2 <- chi_precess o2 n2 p p_inj ; Ok (m1, m2).
(** BSplinePrimaryPowerlawRatio.__call__ (342-365) *)
Definition primary_powerlaw_call (m : m1d) (m1 q : list num) (beta mmin : num) (coefs : list num) (pe_samples : bool) : result (list num) :=
  do p <- m1d_call m coefs pe_samples ;
  product p (map2 (fun qq mm => powerlaw_pdf qq beta (mmin / mm) (Fin 1) (Fin 0)) q m1).
(** PLPeakPrimaryBSplineRatio.__call__ (410-443) *)
Definition plpeak_ratio_call (m : m1d) (m1 : list num) (alpha mmin mmax mpp sigpp lam : num) (coefs : list num) (pe_samples : bool) : result (list num) :=
  do p <- m1d_call m coefs pe_samples ;
  product (map (fun mm => plpeak_primary_pdf mm alpha mmin mmax mpp sigpp lam None) m1) p.
(** BSplinePrimaryBSplineRatio (446-530) *)
Definition primary_ratio (o1 o2 : opts) (n1 n2 : nat) (m1 m1_inj q q_inj : list num) (mmax m1min m2min : num) : result (m1d * m1d) :=
  do a <- mass_model m1min mmax o1 n1 m1 m1_inj ; do b <- ratio_model (m2min / mmax) o2 n2 q q_inj ; Ok (a, b).
Definition primary_ratio_call (ms : m1d * m1d) (mcoefs qcoefs : list num) (pe_samples : bool) : result (list num) :=
  do pq <- m1d_call (snd ms) qcoefs pe_samples ; do pm <- m1d_call (fst ms) mcoefs pe_samples ; product pq pm.
(** BSplineIIDComponentMasses (533-613) *)
Record cmass := CM { c_m1 : m1d; c_m2 : m1d; c_q : list num; c_qinj : list num }.
Definition independent_component_masses (o1 o2 : opts) (n1 n2 : nat) (mmin1 mmax1 mmin2 mmax2 : num) (m1 m2 m1_inj m2_inj : list num) : result cmass :=
  do a <- mass_model mmin1 mmax1 o1 n1 m1 m1_inj ; do b <- mass_model mmin2 mmax2 o2 n2 m2 m2_inj ;
  Ok (CM a b (map2 ndiv m2 m1) (map2 ndiv m2_inj m1_inj)).
Definition iid_component_masses (o : opts) (n : nat) (mmin mmax : num) (m1 m2 m1_inj m2_inj : list num) : result cmass :=
  independent_component_masses o o n n mmin mmax mmin mmax m1 m2 m1_inj m2_inj.
Definition iid_masses_call (m : cmass) (coefs : list num) (beta : num) (pe_samples : bool) : result (list num) :=
  do p <- pair_call (c_m1 m) (c_m2 m) coefs coefs pe_samples ;
  let q := if pe_samples then c_q m else c_qinj m in
  Ok (map2 (fun v qq => nwhere (nlt qq (Fin 0) || ngt qq (Fin 1)) (Fin 0) v * npow qq beta) p q).
(** BSplineIndependentComponentMasses (616-703) *)
Definition independent_masses_call (m : cmass) (pcoefs scoefs : list num) (beta : num) (pe_samples : bool) : result (list num) :=
  do p <- pair_call (c_m1 m) (c_m2 m) pcoefs scoefs pe_samples ;
  let q := if pe_samples then c_q m else c_qinj m in
  Ok (map2 (fun v qq => v * npow qq beta) p q).

(** ** spline_perturbation.py *)
(** Knots built by hand (48-56, 178-199): n-k+2 equally spaced interior knots, k-1 more on each side.  np.linspace
    rejects a negative count, interior_knots[1] needs two points. *)
Definition hand_knots (lo hi : num) (n k : nat) : result (list num * list num) :=
  if (Z.of_nat n - Z.of_nat k + 2 <? 0)%Z then Err ValueError else
  let interior := nlinspace lo hi (n + 2 - k) in
  match interior with
  | a :: b :: _ =>
      let dx := b - a in
      let steps := seq 1 (k - 1) in
      Ok ((map (fun i => lo - dx * Fin (INR i)) (rev steps) ++ interior ++ map (fun i => hi + dx * Fin (INR i)) steps)%list, interior)
  | _ => Err IndexError
  end.
(** PowerlawBasisSplinePrimaryPowerlawRatio (15-150).  The basis class gets the knots, the interior knots, the range and k=4. *)
Record plsp := PLSP { l_m2min : num; l_ms : list num; l_sp : spline; l_pe : list (list num); l_inj : list (list num); l_norm : list (list num) }.
Definition make_plsp (s : skind) (normalize : bool) (n : nat) (m1pe m1inj : list num) (mmin m2min mmax : num) (k : nat) : result plsp :=
  let ms := nlinspace mmin mmax 1000 in
  do ki <- hand_knots (nlog mmin) (nlog mmax) n k ;
  do sp <- make_spline s n 4 (Some (fst ki)) (Some (snd ki)) (nlog mmin) (nlog mmax) normalize ;
  Ok (PLSP m2min ms sp (bases sp (map nlog m1pe)) (bases sp (map nlog m1inj)) (bases sp (map nlog ms))).
Definition nisinf (x : num) : bool := match x with PInf | NInf => true | _ => false end.
(** smoothing (63-83) *)
Definition smoothing (m mmin delta_m : num) : num :=
  let sm := m - mmin in
  let region := ngt sm (Fin 0) && nlt sm delta_m in
  let window := nwhere region (Fin 1 / (nexp (delta_m / sm + delta_m / (sm - delta_m)) + Fin 1)) (Fin 1) in
  let window := nwhere (nisinf window || nisnan window) (Fin 1) window in
  nwhere (nle m mmin) (Fin 0) window.
(** norm_p_m1 (105-120) and p_m1 (85-103): the design matrix is that of the PE samples for a 2-d array, of the injections
    for a 1-d array. *)
Definition plsp_norm (d : plsp) (alpha mmin mmax : num) (cs : list num) : result num :=
  do e <- project (l_sp d) (l_norm d) cs ;
  Ok (ntrapz (map2 (fun m v => powerlaw_pdf m (- alpha) mmin mmax (Fin 0) * nexp v) (l_ms d) e) (l_ms d)).
Definition plsp_p_m1 (d : plsp) (m1 : list num) (pe_samples : bool) (alpha mmin mmax : num) (cs : list num) : result (list num) :=
  do e <- project (l_sp d) (if pe_samples then l_pe d else l_inj d) cs ;
  do n <- plsp_norm d alpha mmin mmax cs ;
  if Nat.eqb (length m1) (length e) then Ok (map2 (fun m v => powerlaw_pdf m (- alpha) mmin mmax (Fin 0) * nexp v / n) m1 e) else Err TypeError.
(** p_q (122-135), __call__ (137-150) *)
Definition plsp_p_q (d : plsp) (q m1 beta : num) : num := powerlaw_pdf q beta (l_m2min d / m1) (Fin 1) (Fin 0).
Definition plsp_call (d : plsp) (m1 q : list num) (pe_samples : bool) (alpha beta mmin mmax : num) (cs : list num) : result (list num) :=
  do p <- plsp_p_m1 d m1 pe_samples alpha mmin mmax cs ;
  product p (map2 (fun qq mm => plsp_p_q d qq mm beta) q m1).

(** PowerlawBasisSplinePrimaryRatio.__init__ (154-222).  Line 220 reads self.qknots, which is never assigned. *)
Definition make_pljoint (n_m n_q : nat) (m1pe qpe m1inj qinj : list num) (mmin mmax : num) (k : nat) : result unit :=
  do km <- hand_knots (nlog mmin) (nlog mmax) n_m k ;
  do kq <- hand_knots (Fin 0) (Fin 1) n_q k ;
  do spm <- make_spline KB n_m 4 (Some (fst km)) (Some (snd km)) (nlog mmin) (nlog mmax) (default_normalize KB) ;
  let _ := (bases spm (map nlog m1pe), bases spm (map nlog m1inj)) in
  do spq <- make_spline KB n_q 4 (Some (fst kq)) (Some (snd kq)) (Fin 0) (Fin 1) (default_normalize KB) ;
  let _ := (bases spq qpe, bases spq qinj) in
  Err AttributeError.

(** PowerlawSplineRedshiftModel (304-372), a subclass of PowerlawRedshiftModel *)
Record plz_model := PZ { y_z : zmodel; y_sp : spline; y_pe : list (list num); y_inj : list (list num); y_norm : list (list num); y_dVpe : list num; y_dVinj : list num }.
Definition make_plz_model (dVcdz : num -> num) (s : skind) (n : nat) (z0 : num) (z : list num) (i0 : num) (z_inj : list num) : result plz_model :=
  let b := redshift_model_init dVcdz z0 z i0 z_inj in
  do sp <- make_spline s n 4 None None (zm_min b) (zm_max b) false ;
  Ok (PZ b sp (bases sp (z0 :: z)) (bases sp (i0 :: z_inj)) (bases sp (zm_zs b)) (map dVcdz (z0 :: z)) (map dVcdz (i0 :: z_inj))).
(** normalization (323-336) *)
Definition plz_model_norm (m : plz_model) (lamb : num) (cs : list num) : result num :=
  do e <- project (y_sp m) (y_norm m) cs ;
  Ok (ntrapz (map2 nmul (map2 (fun d z => d * npow (Fin 1 + z) (lamb - Fin 1)) (zm_dV (y_z m)) (zm_zs (y_z m))) (map nexp e)) (zm_zs (y_z m))).
(** prob (338-352) and __call__ (354-372) *)
Definition plz_model_call (m : plz_model) (z : list num) (pe_samples : bool) (lamb : num) (cs : list num) : result (list num) :=
  do e <- project (y_sp m) (if pe_samples then y_pe m else y_inj m) cs ;
  do n <- plz_model_norm m lamb cs ;
  let dv := if pe_samples then y_dVpe m else y_dVinj m in
  if negb (Nat.eqb (length z) (length e)) then Err TypeError else
  Ok (map2 (fun zz p => nwhere (nle zz (zm_max (y_z m))) (p / n) (Fin 0)) z
        (map2 nmul (map2 (fun d zz => d * npow (Fin 1 + zz) (lamb - Fin 1)) dv z) (map nexp e))).
