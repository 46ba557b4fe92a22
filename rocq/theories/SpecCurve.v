(** A spline curve on equally spaced knots, independent of the model. *)
From Verif Require Export SpecSpline.
Open Scope R_scope.

(** n + k equally spaced knots of which those with indices k-1 and n are lo and hi *)
Definition uniform_knot (lo hi : R) (n k : nat) (m : nat) : R := lo + (INR m - INR (k - 1)) * ((hi - lo) / INR (n + 1 - k)).
(** the linear combination of the n B-splines of order k on [lo, hi] at u; zero outside *)
Definition curve (lo hi : R) (n k : nat) (cs : list R) (u : R) : R :=
  if (Rleb lo u && Rleb u hi)%bool then Rlsum (map (fun i => nth i cs 0 * Bspline (uniform_knot lo hi n k) k i u) (seq 0 n)) else 0.
(** [g] scaled so that its trapezoid sum on the grid is one *)
Definition scaled_on (grid : list R) (g : R -> R) (x : R) : R := g x / trapezoid grid (map g grid).
