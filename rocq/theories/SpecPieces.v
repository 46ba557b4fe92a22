(** The broken line through a table. *)
From Verif Require Export Spec.
Open Scope R_scope.
(** [f] is the straight line between each two neighbouring points (xs_i, ys_i), (xs_{i+1}, ys_{i+1}) *)
Definition broken_line (xs ys : list R) (f : R -> R) : Prop :=
  forall i t, (S i < length xs)%nat -> 0 <= t <= 1 -> f ((1 - t) * nth i xs 0 + t * nth (S i) xs 0) = (1 - t) * nth i ys 0 + t * nth (S i) ys 0.
