(** Least squares: the data are ys, the design matrix is given by its columns B (one row of values per basis function). *)
From Verif Require Export Arr.
From Verif Require Export Spec.
Open Scope R_scope.

Definition dot (a b : list R) : R := Rlsum (map2 Rmult a b).
Definition column (B : list (list R)) (j : nat) : list R := map (fun row => nth j row 0) B.
(** value of the linear combination at data point j *)
Definition combination (B : list (list R)) (alpha : list R) (j : nat) : R := dot (column B j) alpha.
Definition squared_error (B : list (list R)) (ys alpha : list R) : R :=
  Rlsum (map (fun j => (nth j ys 0 - combination B alpha j) ^ 2) (seq 0 (length ys))).
Definition rectangular (k n : nat) (B : list (list R)) : Prop := length B = k /\ Forall (fun row => length row = n) B.
(** inner products of the basis functions over the data points *)
Definition gram (B : list (list R)) : list (list R) := map (fun r => map (fun r' => dot r r') B) B.
Definition right_inverse (k : nat) (A A' : list (list R)) : Prop :=
  forall i j, (i < k)%nat -> (j < k)%nat -> dot (nth i A []) (column A' j) = if Nat.eqb i j then 1 else 0.
