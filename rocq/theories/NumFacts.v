(** Facts about [Num]. *)
From Verif Require Export Num.

Lemma Rltb_true x y : Rltb x y = true <-> x < y.
Proof. unfold Rltb; destruct (Rlt_dec x y); split; intros; try discriminate; auto; contradiction. Qed.
Lemma Rltb_false x y : Rltb x y = false <-> y <= x.
Proof. unfold Rltb; destruct (Rlt_dec x y); split; intros; try discriminate; auto; lra. Qed.
Lemma Rleb_true x y : Rleb x y = true <-> x <= y.
Proof. unfold Rleb; destruct (Rle_dec x y); split; intros; try discriminate; auto; contradiction. Qed.
Lemma Rleb_false x y : Rleb x y = false <-> y < x.
Proof. unfold Rleb; destruct (Rle_dec x y); split; intros; try discriminate; auto; lra. Qed.
Lemma Reqb_true x y : Reqb x y = true <-> x = y.
Proof. unfold Reqb; destruct (Req_EM_T x y); split; intros; try discriminate; auto; contradiction. Qed.
Lemma Reqb_false x y : Reqb x y = false <-> x <> y.
Proof. unfold Reqb; destruct (Req_EM_T x y); split; intros; try discriminate; auto; contradiction. Qed.

Lemma Rltb_t x y : x < y -> Rltb x y = true. Proof. apply Rltb_true. Qed.
Lemma Rltb_f x y : y <= x -> Rltb x y = false. Proof. apply Rltb_false. Qed.
Lemma Rleb_t x y : x <= y -> Rleb x y = true. Proof. apply Rleb_true. Qed.
Lemma Rleb_f x y : y < x -> Rleb x y = false. Proof. apply Rleb_false. Qed.
Lemma Reqb_t x y : x = y -> Reqb x y = true. Proof. apply Reqb_true. Qed.
Lemma Reqb_f x y : x <> y -> Reqb x y = false. Proof. apply Reqb_false. Qed.

(** Case analysis on every real comparison in the goal, with the ordering facts as hypotheses. *)
Ltac rcase :=
  match goal with
  | |- context [Rltb ?a ?b] => let H := fresh "C" in destruct (Rltb a b) eqn:H; [apply Rltb_true in H | apply Rltb_false in H]
  | |- context [Rleb ?a ?b] => let H := fresh "C" in destruct (Rleb a b) eqn:H; [apply Rleb_true in H | apply Rleb_false in H]
  | |- context [Reqb ?a ?b] => let H := fresh "C" in destruct (Reqb a b) eqn:H; [apply Reqb_true in H | apply Reqb_false in H]
  end.
Ltac rcases := repeat (rcase; cbn [orb andb negb nwhere]).

Lemma nadd_fin a b : nadd (Fin a) (Fin b) = Fin (a + b). Proof. reflexivity. Qed.
Lemma nsub_fin a b : nsub (Fin a) (Fin b) = Fin (a - b). Proof. reflexivity. Qed.
Lemma nmul_fin a b : nmul (Fin a) (Fin b) = Fin (a * b). Proof. reflexivity. Qed.
Lemma nneg_fin a : nneg (Fin a) = Fin (- a). Proof. reflexivity. Qed.
Lemma nexp_fin a : nexp (Fin a) = Fin (exp a). Proof. reflexivity. Qed.
Lemma ndiv_fin a b : b <> 0 -> ndiv (Fin a) (Fin b) = Fin (a / b).
Proof. intros H; cbn; rewrite Reqb_f; auto. Qed.
Lemma nlog_fin a : 0 < a -> nlog (Fin a) = Fin (ln a).
Proof. intros H; cbn; rewrite Rltb_t; auto. Qed.
Lemma nlog_zero : nlog (Fin 0) = NInf.
Proof. cbn. rewrite Rltb_f by lra. rewrite Reqb_t; auto. Qed.
Lemma nsqrt_fin a : 0 <= a -> nsqrt (Fin a) = Fin (sqrt a).
Proof. intros H; cbn; rewrite Rltb_f; auto. Qed.
Lemma npow_fin a b : 0 < a -> npow (Fin a) (Fin b) = Fin (Rpower a b).
Proof. intros H; cbn; unfold npowR; rewrite Rltb_t; auto. Qed.
Lemma npowi_fin a n : npowi (Fin a) n = Fin (a ^ n).
Proof.
  induction n as [|n IH]; [reflexivity|].
  destruct n as [|n]; [cbn; f_equal; ring|].
  change (npowi (Fin a) (S (S n))) with (nmul (Fin a) (npowi (Fin a) (S n))).
  rewrite IH; reflexivity.
Qed.
Lemma Fin_inj a b : Fin a = Fin b -> a = b. Proof. congruence. Qed.
Lemma FMAX_pos : 0 < FMAX. Proof. unfold FMAX; lra. Qed.

Lemma sinf_pos a : 0 < a -> sinf a = PInf.
Proof. intros; unfold sinf; rewrite Rltb_t; auto. Qed.
Lemma sinf_neg a : a < 0 -> sinf a = NInf.
Proof. intros; unfold sinf; rewrite Rltb_f by lra; rewrite Rltb_t; auto. Qed.
Lemma sinf_0 : sinf 0 = NaN.
Proof. unfold sinf; rewrite !Rltb_f by lra; auto. Qed.

Lemma nadd_comm x y : nadd x y = nadd y x.
Proof. destruct x, y; cbn; try reflexivity. f_equal; ring. Qed.
Lemma nadd_assoc x y z : nadd x (nadd y z) = nadd (nadd x y) z.
Proof. destruct x, y, z; cbn; try reflexivity. f_equal; ring. Qed.
Lemma nadd_0_l x : nadd (Fin 0) x = x.
Proof. destruct x; cbn; try reflexivity. f_equal; ring. Qed.
Lemma nadd_0_r x : nadd x (Fin 0) = x.
Proof. rewrite nadd_comm; apply nadd_0_l. Qed.
Lemma nmul_comm x y : nmul x y = nmul y x.
Proof. destruct x, y; cbn; try reflexivity. f_equal; ring. Qed.
Lemma nmul_1_l x : nmul (Fin 1) x = x.
Proof. destruct x; cbn; rewrite ?sinf_pos by lra; try reflexivity. f_equal; ring. Qed.
Lemma nmul_1_r x : nmul x (Fin 1) = x.
Proof. rewrite nmul_comm; apply nmul_1_l. Qed.
Lemma sinf_mult a b : sinf (a * b) = nmul (Fin a) (sinf b).
Proof.
  unfold sinf at 2. destruct (Rltb 0 b) eqn:E1; [apply Rltb_true in E1|apply Rltb_false in E1].
  - cbn. unfold sinf. rcases; auto; nra.
  - destruct (Rltb b 0) eqn:E2; [apply Rltb_true in E2|apply Rltb_false in E2].
    + cbn. unfold sinf. rcases; cbn; auto; nra.
    + assert (b = 0) by lra. subst. cbn. unfold sinf. rcases; auto; nra.
Qed.
Lemma nneg_nmul_l x y : nmul (nneg x) y = nneg (nmul x y).
Proof.
  destruct x, y; cbn; try reflexivity; try (unfold sinf; rcases; cbn; auto; lra).
  f_equal; ring.
Qed.
Lemma nneg_nmul_r x y : nmul x (nneg y) = nneg (nmul x y).
Proof. rewrite nmul_comm, nneg_nmul_l, nmul_comm. reflexivity. Qed.
Lemma sinf_cases a : (0 < a /\ sinf a = PInf) \/ (a < 0 /\ sinf a = NInf) \/ (a = 0 /\ sinf a = NaN).
Proof. unfold sinf. rcases; auto. right; right; split; auto; lra. Qed.
Lemma nmul_assoc x y z : nmul x (nmul y z) = nmul (nmul x y) z.
Proof.
  destruct x as [a| | |], y as [b| | |], z as [c| | |]; cbn [nmul nneg]; try reflexivity.
  1: f_equal; ring.
  all: repeat match goal with
    | |- context [sinf ?a] =>
       let H := fresh in let E := fresh in
       destruct (sinf_cases a) as [[H E]|[[H E]|[H E]]]; rewrite E; cbn [nmul nneg]
    end; try reflexivity; try nra.
Qed.
Lemma nneg_invol x : nneg (nneg x) = x.
Proof. destruct x; cbn; try reflexivity. f_equal; ring. Qed.

(** simplify operations on finite numbers with nonzero denominators / positive logs found by the
    given tactic *)
Ltac nfin_with tac :=
  repeat first
    [ progress (rewrite ?nadd_fin, ?nsub_fin, ?nmul_fin, ?nneg_fin, ?nexp_fin, ?npowi_fin)
    | rewrite ndiv_fin by tac
    | rewrite nlog_fin by tac
    | rewrite nsqrt_fin by tac
    | rewrite npow_fin by tac ].
Ltac nfin := nfin_with ltac:(first [assumption | lra | nra]).
