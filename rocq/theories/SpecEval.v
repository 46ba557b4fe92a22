(** What the spline classes should return at a point, independent of the model. *)
From Verif Require Export SpecSpline.
Open Scope R_scope.

(** sum of coefs_i B_i(u) over the B-splines of order k on the knots [us] *)
Definition spline_sum (us : list R) (k : nat) (coefs : list R) (u : R) : R :=
  Rlsum (map (fun i => nth i coefs 0 * Bspline (fun m => nth m us 0) k i u) (seq 0 (length coefs))).
(** M-splines: B-splines scaled by order over width of support *)
Definition Mspline (us : list R) (k i : nat) (u : R) : R := ratio (INR k) (nth (i + k) us 0 - nth i us 0) * Bspline (fun m => nth m us 0) k i u.
Definition mspline_sum (us : list R) (k : nat) (coefs : list R) (u : R) : R :=
  Rlsum (map (fun i => nth i coefs 0 * Mspline us k i u) (seq 0 (length coefs))).
(** y on [a, b], zero outside *)
Definition within (a b x y : R) : R := if (Rleb a x && Rleb x b)%bool then y else 0.
(** the mean of a list of numbers *)
Definition average (l : list R) : R := Rlsum l / INR (length l).
(** the k+1 knots on which the i-th spline of order k depends *)
Definition support_knots (us : list R) (k i : nat) : list R := firstn (k + 1) (skipn i us).
