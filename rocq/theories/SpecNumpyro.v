(** Vocabulary for gridded distributions. *)
From Verif Require Export Spec.
Open Scope R_scope.
(** trapezoid integral of the samples [ys] over the first i+1 grid points *)
Definition prefix_integral (xs ys : list R) (i : nat) : R := trapezoid (firstn (S i) xs) (firstn (S i) ys).
Fixpoint nondecreasing (l : list R) : Prop := match l with a :: ((b :: _) as r) => a <= b /\ nondecreasing r | _ => True end.
(** grid with constant spacing h *)
Definition uniform_grid (h : R) (xs : list R) : Prop := 0 < h /\ forall i, (S i < length xs)%nat -> nth (S i) xs 0 - nth i xs 0 = h.
