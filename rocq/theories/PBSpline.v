(** The spline bases are the textbook B-splines; partition of unity. *)
From Verif Require Export MSpline NumFacts ArrFacts Calc SpecSpline.
Open Scope R_scope.

Lemma kn_fin ts i : (i < length ts)%nat -> kn (map Fin ts) i = Fin (nth i ts 0).
Proof. intros H. unfold kn. rewrite (nth_indep _ NaN (Fin 0)) by (rewrite map_length; auto). apply map_nth. Qed.

Section Textbook.
Variable t : nat -> R.

Lemma ratio_val a b : b <> 0 -> ratio a b = a / b.
Proof. intros H. unfold ratio. rewrite Reqb_f by auto. reflexivity. Qed.
Lemma ratio_0 a : ratio a 0 = 0.
Proof. unfold ratio. rewrite Reqb_t by auto. reflexivity. Qed.

Lemma Bspline_S k i x : (1 <= k)%nat -> Bspline t (S k) i x =
  ratio (x - t i) (t (i + k)%nat - t i) * Bspline t k i x
  + ratio (t (i + S k)%nat - x) (t (i + S k)%nat - t (i + 1)%nat) * Bspline t k (i + 1) x.
Proof. destruct k; [lia|]. reflexivity. Qed.

Lemma Bspline_support k i x : (forall j, (i <= j < i + k)%nat -> t j <= t (S j)) ->
  x < t i \/ t (i + k)%nat <= x -> Bspline t k i x = 0.
Proof.
  revert i. induction k as [|k IH]; intros i HM HX; [reflexivity|].
  destruct k as [|k].
  - cbn [Bspline]. destruct HX as [HX|HX].
    + rewrite Rleb_f by auto. reflexivity.
    + rewrite (Rltb_f x) by auto. rewrite andb_false_r. reflexivity.
  - rewrite Bspline_S by lia.
    rewrite (IH i), (IH (i + 1)%nat).
    + ring.
    + intros j Hj. apply HM. lia.
    + destruct HX as [HX|HX].
      * left. pose proof (HM i ltac:(lia)) as G. replace (S i) with (i + 1)%nat in G by lia. lra.
      * right. replace (i + 1 + S k)%nat with (i + S (S k))%nat by lia. auto.
    + intros j Hj. apply HM. lia.
    + destruct HX as [HX|HX]; [left; auto|right].
      pose proof (HM (i + S k)%nat ltac:(lia)) as G. replace (S (i + S k)) with (i + S (S k))%nat in G by lia. lra.
Qed.

Lemma mono_le i j : (i <= j)%nat -> (forall m, (i <= m < j)%nat -> t m <= t (S m)) -> t i <= t j.
Proof.
  intros H. induction H as [|j H IH]; intros HM; [lra|]. pose proof (HM j ltac:(lia)).
  assert (t i <= t j) by (apply IH; intros; apply HM; lia). lra.
Qed.

Lemma ratio_nonneg a b : 0 <= a -> 0 <= b -> 0 <= ratio a b.
Proof.
  intros Ha Hb. destruct (Req_dec b 0) as [->|N]; [rewrite ratio_0; lra|]. rewrite ratio_val by auto.
  apply Rmult_le_pos; auto. left. apply Rinv_0_lt_compat. lra.
Qed.

Lemma Bspline_nonneg k i x : (forall j, (i <= j < i + k)%nat -> t j <= t (S j)) -> 0 <= Bspline t k i x.
Proof.
  revert i. induction k as [|k IH]; intros i HM; [cbn; lra|].
  destruct k as [|k].
  - cbn [Bspline]. destruct (_ && _)%bool; lra.
  - destruct (Rlt_dec x (t i)) as [L|L]; [rewrite Bspline_support; auto; lra|].
    destruct (Rle_dec (t (i + S (S k))%nat) x) as [L2|L2]; [rewrite Bspline_support; auto; lra|].
    rewrite Bspline_S by lia. apply Rplus_le_le_0_compat; apply Rmult_le_pos.
    + apply ratio_nonneg; [lra|]. assert (t i <= t (i + S k)%nat) by (apply mono_le; [lia|intros; apply HM; lia]). lra.
    + apply IH. intros; apply HM; lia.
    + apply ratio_nonneg; [lra|]. assert (t (i + 1)%nat <= t (i + S (S k))%nat) by (apply mono_le; [lia|intros; apply HM; lia]). lra.
    + apply IH. intros; apply HM; lia.
Qed.

(** ** partition of unity *)
Lemma Rlsum_zero l : (forall v, In v l -> v = 0) -> Rlsum l = 0.
Proof. induction l as [|a l IH]; intros H; cbn; [auto|]. rewrite (H a), IH; [ring| |left; auto]. intros; apply H; right; auto. Qed.
Definition Bsum (k a n : nat) (x : R) : R := Rlsum (map (fun i => Bspline t k i x) (seq a n)).
Lemma Bsum_S k a n x : Bsum k a (S n) x = Bsum k a n x + Bspline t k (a + n) x.
Proof. unfold Bsum. rewrite seq_S, map_app, Rlsum_app. cbn. ring. Qed.
Lemma Bsum_S_l k a n x : Bsum k a (S n) x = Bspline t k a x + Bsum k (S a) n x.
Proof. reflexivity. Qed.

Lemma weights_sum k i x : (1 <= k)%nat -> (forall j, (i <= j < i + k)%nat -> t j <= t (S j)) ->
  ratio (x - t i) (t (i + k)%nat - t i) * Bspline t k i x + ratio (t (i + k)%nat - x) (t (i + k)%nat - t i) * Bspline t k i x
  = Bspline t k i x.
Proof.
  intros Hk HM. destruct (Req_dec (t (i + k)%nat - t i) 0) as [E|N].
  - rewrite Bspline_support; [ring|auto|]. lra.
  - rewrite !ratio_val by auto. field. auto.
Qed.

(** one step of the telescoping: sum of n B-splines of order k+1 *)
Lemma Bsum_step k a n x : (1 <= k)%nat -> (1 <= n)%nat -> (forall j, (a <= j < a + n + k)%nat -> t j <= t (S j)) ->
  Bsum (S k) a n x = ratio (x - t a) (t (a + k)%nat - t a) * Bspline t k a x + Bsum k (S a) (n - 1) x
    + ratio (t (a + n + k)%nat - x) (t (a + n + k)%nat - t (a + n)%nat) * Bspline t k (a + n) x.
Proof.
  intros Hk Hn. induction n as [|n IH]; intros HM; [lia|].
  destruct n as [|n].
  - unfold Bsum at 1. cbn [seq map Rlsum]. rewrite Bspline_S by auto. cbn [Nat.sub]. unfold Bsum. cbn [seq map Rlsum].
    replace (a + S k)%nat with (a + 1 + k)%nat by lia. ring.
  - rewrite Bsum_S, IH by (try lia; intros; apply HM; lia). rewrite Bspline_S by auto.
    replace (S (S n) - 1)%nat with (S (S n - 1)) by lia. rewrite Bsum_S.
    replace (S a + (S n - 1))%nat with (a + S n)%nat by lia.
    replace (a + S n + S k)%nat with (a + S (S n) + k)%nat by lia. replace (a + S n + 1)%nat with (a + S (S n))%nat by lia.
    pose proof (weights_sum k (a + S n) x Hk ltac:(intros; apply HM; lia)) as W. lra.
Qed.

Lemma Bsum_unity k a n x : (1 <= k)%nat -> (1 <= n)%nat -> (forall j, (a <= j < a + n + k - 1)%nat -> t j <= t (S j)) ->
  (k <= n)%nat -> t (a + k - 1)%nat <= x < t (a + n)%nat -> Bsum k a n x = 1.
Proof.
  revert a n. induction k as [|k IH]; intros a n Hk Hn HM Hkn HX; [lia|].
  destruct k as [|k].
  - clear IH. replace (a + 1 - 1)%nat with a in HX by lia. induction n as [|n IHn]; [lia|].
    rewrite Bsum_S. destruct (Rlt_dec x (t (a + n)%nat)) as [L|L].
    + destruct n as [|n]; [rewrite Nat.add_0_r in L; lra|].
      rewrite IHn; [|lia|intros; apply HM; lia|lia|split; [tauto|auto]]. rewrite Bspline_support; [ring| |left; auto].
      intros; apply HM; lia.
    + assert (Z : Bsum 1 a n x = 0).
      { unfold Bsum. apply Rlsum_zero. intros v Hv. apply in_map_iff in Hv as (i & <- & Hi). apply in_seq in Hi.
        apply Bspline_support; [intros; apply HM; lia|]. right.
        assert (t (i + 1)%nat <= t (a + n)%nat) by (apply mono_le; [lia|intros; apply HM; lia]). lra. }
      rewrite Z. cbn [Bspline]. rewrite Rleb_t by lra. replace (a + n + 1)%nat with (a + S n)%nat by lia. rewrite Rltb_t by tauto. cbn. ring.
  - rewrite Bsum_step by (try lia; intros; apply HM; lia).
    rewrite (Bspline_support (S k) a), (Bspline_support (S k) (a + n)).
    + rewrite !Rmult_0_r, Rplus_0_l, Rplus_0_r. apply IH; [lia|lia| |lia|].
      * intros; apply HM; lia.
      * replace (S a + S k - 1)%nat with (a + S (S k) - 1)%nat by lia. replace (S a + (n - 1))%nat with (a + n)%nat by lia. auto.
    + intros; apply HM; lia.
    + left. tauto.
    + intros; apply HM; lia.
    + right. replace (a + S k)%nat with (a + S (S k) - 1)%nat by lia. tauto.
Qed.
End Textbook.
