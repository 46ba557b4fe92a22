(** Model of gwinferno/models/bsplines/smoothing.py. *)
From Verif Require Export Num Arr.
Open Scope num_scope.

(** jnp.diff(coefs, n=degree): the first difference applied [degree] times (degree 0 is the identity) *)
Fixpoint ndiffn (degree : nat) (l : list num) : list num :=
  match degree with O => l | S d => ndiffn d (ndiff l) end.

(** smoothing.py:8-28 (1-D coefficient vector, on which .T is the identity) *)
Definition apply_difference_prior (coefs : list num) (inv_var : num) (degree : nat) : num :=
  let delta_c := ndiffn degree coefs in
  Fin (- (1 / 2)) * inv_var * ndot delta_c delta_c.
