(** Further specification vocabulary. *)
From Verif Require Export Spec.
Open Scope R_scope.

(** Density at [x] of the Beta distribution with shapes [a], [b] on [0,s]; [B] is the Beta function at (a,b). *)
Definition beta_density (a b s B x : R) : R :=
  Rpower x (a - 1) * Rpower (s - x) (b - 1) / (Rpower s (a + b - 1) * B).

(** [p] is a probability density on the open interval (a,b), the integral being improper at both ends. *)
Definition density_on_open (p : R -> num) (a b : R) : Prop :=
  exists f : R -> R,
    (forall x, a < x < b -> p x = Fin (f x) /\ 0 <= f x) /\
    is_RInt_gen f (at_right a) (at_left b) 1.

(** [B] is the value of Euler's Beta integral, improper at both ends. *)
Definition beta_integral_open (a b B : R) : Prop :=
  is_RInt_gen (fun t => Rpower t (a - 1) * Rpower (1 - t) (b - 1)) (at_right 0) (at_left 1) B /\ 0 < B.
