(** When a B-spline population model can be built at all. *)
From Verif Require Export SpecBSplines.
Open Scope R_scope.

(** the caller gives no knots of their own, and a range that makes sense for the basis in use *)
Definition own_range (basis : skind) (range : num * num) (o : opts) : Prop :=
  o_knots o = None /\ o_interior o = None /\ exists lo hi, dflt range (o_range o) = (Fin lo, Fin hi) /\ valid_range (dflt basis (o_basis o)) lo hi.
(** one spline more than the degree, at least *)
Definition enough (o : opts) (n : nat) : Prop := (dflt 3%nat (o_degree o) < n)%nat.
Definition built {A} (r : result A) : Prop := exists m, r = Ok m.
