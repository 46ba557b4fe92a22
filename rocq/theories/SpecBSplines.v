(** What the one-dimensional B-spline population models should return, sample by sample. *)
From Verif Require Export MBSplines SpecSpline.
Open Scope R_scope.

(** x is a finite number in [lo, hi] *)
Definition inside (lo hi : R) (x : num) : Prop := exists v, x = Fin v /\ lo <= v <= hi.

(** [p] is the density at [x] for coefficients [coefs]: the spline itself evaluated at the single point x when x is inside the
    spline's range, zero otherwise (outside, infinite or NaN).  [basis], [range], [o], [n]: the constructor's arguments. *)
Definition density_at (basis : skind) (range : num * num) (o : opts) (n : nat) (coefs : list num) (x p : num) : Prop :=
  exists sp lo hi, dflt range (o_range o) = (Fin lo, Fin hi) /\
    make_spline (dflt basis (o_basis o)) n (dflt 3%nat (o_degree o) + 1) (o_knots o) (o_interior o) (Fin lo) (Fin hi)
      (dflt (default_normalize (dflt basis (o_basis o))) (o_normalize o)) = Ok sp /\
    (inside lo hi x -> eval sp (x :: nil) coefs = Ok (p :: nil)) /\
    (~ inside lo hi x -> p = Fin 0).
(** the range is a pair of finite numbers *)
Definition finite_range (range : num * num) (o : opts) : Prop := exists lo hi, dflt range (o_range o) = (Fin lo, Fin hi).
(** all keyword arguments left at their defaults *)
Definition no_opts : opts := Opts None None None None None None.

(** the samples a call with flag [pe] is about *)
Definition samples (xx xx_inj : list num) (pe : bool) := if pe then xx else xx_inj.
Definition m1_samples (m1pe m1inj : list R) (pe : bool) := if pe then m1pe else m1inj.
Definition all_samples (p0 : R) (pe : list R) (i0 : R) (inj : list R) (sel : bool) : list R := if sel then p0 :: pe else i0 :: inj.
(** ends of the redshift grid: the larger of the two minima and the smaller of the two maxima *)
Definition grid_lo (p0 : R) (pe : list R) (i0 : R) (inj : list R) : R := Rmax (fold_left Rmin pe p0) (fold_left Rmin inj i0).
Definition grid_hi (p0 : R) (pe : list R) (i0 : R) (inj : list R) : R := Rmin (fold_left Rmax pe p0) (fold_left Rmax inj i0).
(** Redshift samples p0::pe and injections i0::inj, and a comoving volume element [dVcdz] which is the real function [v]:
    all redshifts above -1 (above 0 if the spline works in log z), a non-degenerate grid, v non-negative on the grid's range
    and positive inside it. *)
Definition good_redshifts (s : skind) (dVcdz : num -> num) (v : R -> R) (p0 : R) (pe : list R) (i0 : R) (inj : list R) : Prop :=
  let a := grid_lo p0 pe i0 inj in let b := grid_hi p0 pe i0 inj in
  -1 < a < b /\
  (logx s = true -> 0 < a /\ Forall (fun z => 0 < z) (p0 :: pe) /\ Forall (fun z => 0 < z) (i0 :: inj)) /\
  (Forall (fun z => -1 < z) (p0 :: pe) /\ Forall (fun z => -1 < z) (i0 :: inj)) /\
  (forall z, -1 < z -> dVcdz (Fin z) = Fin (v z)) /\ (forall z, a <= z <= b -> 0 <= v z) /\ (forall z, a < z <= b -> 0 < v z).

(** calling the one-dimensional model built by [make] gives, at every sample, the density of a spline in [basis]
    with default domain [range] *)
Definition density_by_sample (make : opts -> nat -> list num -> list num -> result m1d) (basis : skind) (range : num * num) : Prop :=
  forall o n xx inj m coefs pe, finite_range range o -> make o n xx inj = Ok m -> (1 <= n)%nat -> length coefs = n ->
  exists ps, m1d_call m coefs pe = Ok ps /\ length ps = length (samples xx inj pe) /\
    forall i, (i < length (samples xx inj pe))%nat -> density_at basis range o n coefs (nth i (samples xx inj pe) NaN) (nth i ps NaN).
