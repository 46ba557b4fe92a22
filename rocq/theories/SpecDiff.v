(** Finite differences, independent of the model. *)
From Verif Require Export Spec.
Open Scope R_scope.
(** the n-th forward difference of a sequence at index i *)
Fixpoint difference (n : nat) (f : nat -> R) (i : nat) : R := match n with O => f i | S m => difference m f (S i) - difference m f i end.
