(** Integrals of functions with isolated singularities, and the isotropic-spin distribution. *)
From Coq Require Export Reals List.
From Coquelicot Require Export Coquelicot.
From Verif Require Export Spec.
Open Scope R_scope.

(** [I] is the integral of [f] over [a,b]: [f] has a continuous antiderivative on [a,b] away from finitely many
    points, and [I] is its increment.  (For continuous [f] this is the Riemann integral; it also covers
    integrable singularities such as that of the logarithm.) *)
Definition newton_integral (f : R -> R) (a b I : R) : Prop :=
  exists (F : R -> R) (S : list R),
    (forall x, a <= x <= b -> continuous F x) /\
    (forall x, a < x < b -> ~ In x S -> is_derive F x (f x)) /\
    I = F b - F a.

(** Density at [s] of a*c for a uniform on [0,A] and c uniform on [-1,1]: the integral over a of
    (1/A) * (1/(2a)) for |s| < a < A. *)
Definition iso_spin (A s : R) : R := if Rlt_dec (Rabs s) A then ln (A / Rabs s) / (2 * A) else 0.

(** Real part of the dilogarithm on the real line: derivative -ln|1-x|/x, zero at zero. *)
Definition dilogarithm (D : R -> R) : Prop :=
  D 0 = 0 /\ (forall x, continuous D x) /\
  (forall x, x <> 0 -> x <> 1 -> is_derive D x (- ln (Rabs (1 - x)) / x)).
