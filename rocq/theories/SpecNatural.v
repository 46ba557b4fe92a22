(** Vocabulary for the natural cubic spline properties. *)
From Coq Require Export Reals List.
From Coquelicot Require Export Coquelicot.
From Verif Require Export Num Spec.
Open Scope R_scope.

(** [c] solves the n x n linear system A c = s, in the numbers of the code. *)
Definition solves (n : nat) (A : nat -> nat -> num) (s : nat -> num) (c : list num) : Prop :=
  length c = n /\
  forall i, (i < n)%nat -> fold_right nadd (Fin 0) (map (fun j => nmul (A i j) (nth j c NaN)) (seq 0 n)) = s i.

(** A linear solver that returns a solution whenever the system has exactly one. *)
Definition correct_solver (solve : nat -> (nat -> nat -> num) -> (nat -> num) -> list num) : Prop :=
  forall n A s, (exists c, solves n A s c /\ forall c', solves n A s c' -> c' = c) -> solves n A s (solve n A s).

(** f is twice continuously differentiable on the whole line, with derivatives f' and f''. *)
Definition twice_continuously_differentiable (f f' f'' : R -> R) : Prop :=
  forall x, is_derive f x (f' x) /\ is_derive f' x (f'' x) /\ continuous f'' x.
