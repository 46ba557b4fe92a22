(** Property theorem C23 (gwinferno/models/bsplines/smoothing.py). *)
From Verif Require Import PSmoothing PSmoothingValue SpecDiff.
Open Scope list_scope.
Open Scope R_scope.

(** C23 *)
Theorem C23_difference_penalty : forall c v n,
  exists x, apply_difference_prior (map Fin c) (Fin v) n = Fin x /\
    (0 <= v -> x <= 0) /\
    (forall k, apply_difference_prior (map (fun y => Fin (k * y)) c) (Fin v) n = Fin (k * k * x)) /\
    apply_difference_prior (rev (map Fin c)) (Fin v) n = Fin x /\
    (0 < v -> (x = 0 <-> exists p, length p = n /\ forall i, (i < length c)%nat -> nth i c 0 = peval p (INR i))).
Proof. exact difference_penalty. Qed.
Print Assumptions C23_difference_penalty.
Theorem C23_order_one_value : forall c v,
  apply_difference_prior (map Fin c) (Fin v) 1
  = Fin (- (v / 2) * Rlsum (map (fun i => (nth (S i) c 0 - nth i c 0) ^ 2) (seq 0 (length c - 1)))).
Proof. exact difference_penalty_order1. Qed.
Print Assumptions C23_order_one_value.
(** of any order: minus half the inverse variance times the sum of the squared differences of that order *)
Theorem C23_value : forall c v n, apply_difference_prior (map Fin c) (Fin v) n = Fin (- (v / 2) * Rlsum (map (fun i => difference n (fun j => nth j c 0) i ^ 2) (seq 0 (length c - n)))).
Proof. exact difference_penalty_value. Qed.
Print Assumptions C23_value.
(** straight lines are not penalised at order 2, parabolas are *)
Example C23_line : exists p, length p = 2%nat /\ forall i, (i < 4)%nat -> nth i [1; 3; 5; 7] 0 = peval p (INR i).
Proof. exists [1; 2]. split; auto. intros i Hi. do 4 (destruct i; [cbn; lra|]). lia. Qed.
Example C23_parabola : apply_difference_prior (map Fin [0; 1; 4]) (Fin 1) 2 = Fin (-2).
Proof. rewrite apply_fin. f_equal. cbn. lra. Qed.
