(** Textbook B-splines (de Boor, A Practical Guide to Splines, ch. IX), independent of the model,
    and the ranges the spline classes accept. *)
From Verif Require Export MSpline Spec.
Open Scope R_scope.

(** a/b, taken to be zero when b is zero (the usual convention for repeated knots) *)
Definition ratio (a b : R) : R := if Reqb b 0 then 0 else a / b.

(** The i-th B-spline of order k (degree k-1) on the knot sequence t. *)
Fixpoint Bspline (t : nat -> R) (k i : nat) (x : R) : R :=
  match k with
  | O => 0
  | S O => if (Rleb (t i) x && Rltb x (t (i + 1)%nat))%bool then 1 else 0
  | S k' => ratio (x - t i) (t (i + k')%nat - t i) * Bspline t k' i x
          + ratio (t (i + k)%nat - x) (t (i + k)%nat - t (i + 1)%nat) * Bspline t k' (i + 1)%nat x
  end.

(** Non-decreasing knots whose distinct neighbours are at least 1e-6 apart. *)
Definition spaced_knots (ts : list R) : Prop :=
  forall i, (S i < length ts)%nat -> nth (S i) ts 0 = nth i ts 0 \/ nth i ts 0 + 1 / 10 ^ 6 <= nth (S i) ts 0.

(** Coordinate in which a spline class works: log x for LogXBSpline and LogXLogYBSpline, x for the others. *)
Definition coord (s : skind) (x : R) : R := if logx s then ln x else x.
(** a < b, and positive for the classes working in log x *)
Definition valid_range (s : skind) (a b : R) : Prop := a < b /\ (logx s = true -> 0 < a).
(** Default knots are at least 1e-6 apart. *)
Definition wide_range (s : skind) (n k : nat) (a b : R) : Prop := 1 / 10 ^ 6 <= (coord s b - coord s a) / INR (n + 1 - k).
(** a number that is not finite *)
Definition not_finite (x : num) : Prop := forall r, x <> Fin r.
