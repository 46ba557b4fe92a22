(** Moments of M-splines: complete homogeneous polynomials of the knots; unit integral and mean. *)
From Verif Require Export PBSpline SpecEval.
From Coquelicot Require Import Coquelicot.
From Verif Require Import Spec.
Open Scope R_scope.

(** complete homogeneous symmetric polynomials *)
Fixpoint hom (l : list R) : nat -> R :=
  match l with
  | nil => fun m => match m with O => 1 | _ => 0 end
  | x :: l' => fix g m := match m with O => 1 | S m' => x * g m' + hom l' (S m') end
  end.
Lemma hom_0 l : hom l 0 = 1. Proof. destruct l; reflexivity. Qed.
Lemma hom_first x l m : hom (x :: l) (S m) = x * hom (x :: l) m + hom l (S m). Proof. reflexivity. Qed.
Lemma hom_last y l : forall m, hom (l ++ (y :: nil)) (S m) = y * hom (l ++ (y :: nil)) m + hom l (S m).
Proof.
  induction l as [|x l IH]; [intros m; cbn [app]; rewrite hom_first; cbn; ring|].
  induction m as [|p IHm]; cbn [app].
  - rewrite !hom_first, !hom_0. rewrite IH, hom_0. ring.
  - cbn [app] in IHm. rewrite hom_first, IH. rewrite (hom_first x l (S p)).
    assert (A := IHm). rewrite hom_first in A. rewrite IHm. 
    replace (y * (y * hom (x :: l ++ (y :: nil)) p + hom (x :: l) (S p))) with (y * (x * hom (x :: l ++ (y :: nil)) p + hom (l ++ (y :: nil)) (S p))) by (rewrite A; ring). ring.
Qed.

(** 1 / binomial (k + m) m *)
Fixpoint cf (k m : nat) : R := match k with O => 1 | S k' => INR (S k') / INR (S k' + m) * cf k' m end.
Lemma INR_S_pos n : 0 < INR (S n). Proof. apply lt_0_INR. lia. Qed.
Lemma cf_S k m : cf k (S m) = cf k m * INR (S m) / INR (S (k + m)).
Proof.
  induction k as [|k IH]; cbn [cf]; [change (0 + m)%nat with m; field; apply Rgt_not_eq, INR_S_pos|]. rewrite IH. replace (S k + S m)%nat with (S (S (k + m))) by lia. replace (S k + m)%nat with (S (k + m)) by lia.
  field. split; apply Rgt_not_eq, INR_S_pos.
Qed.
Lemma hom_repeat p k m : hom (repeat p (S k)) m * cf k m = p ^ m.
Proof.
  revert m. induction k as [|k IHk].
  - intros m. cbn [repeat cf]. rewrite Rmult_1_r. induction m as [|m IH]; [reflexivity|]. rewrite hom_first, IH. cbn. ring.
  - induction m as [|m IHm]; [rewrite hom_0|].
    + cbn [pow]. rewrite Rmult_1_l. clear. assert (G : forall j, cf j 0 = 1). { induction j as [|j IH]; [reflexivity|]. cbn [cf]. rewrite IH, Nat.add_0_r. field. apply Rgt_not_eq, INR_S_pos. } apply G.
    + change (repeat p (S (S k))) with (p :: repeat p (S k)). rewrite hom_first, Rmult_plus_distr_r. change (p :: repeat p (S k)) with (repeat p (S (S k))).
      replace (p * hom (repeat p (S (S k))) m * cf (S k) (S m)) with (p * (hom (repeat p (S (S k))) m * cf (S k) m) * (INR (S m) / INR (S (S k + m)))) by (rewrite cf_S; field; apply Rgt_not_eq, INR_S_pos).
      rewrite IHm. cbn [cf]. replace (hom (repeat p (S k)) (S m) * (INR (S k) / INR (S k + S m) * cf k (S m))) with (hom (repeat p (S k)) (S m) * cf k (S m) * (INR (S k) / INR (S k + S m))) by ring.
      rewrite IHk. replace (S k + S m)%nat with (S (S (k + m))) by lia. replace (S (S k + m)) with (S (S (k + m))) by lia. cbn [pow].
      assert (E : INR (S m) + INR (S k) = INR (S (S (k + m)))). { rewrite <- plus_INR. f_equal. lia. } pose proof (INR_S_pos (S (k + m))). 
      transitivity (p * p ^ m * ((INR (S m) + INR (S k)) / INR (S (S (k + m))))); [field; lra|]. rewrite E. field. lra.
Qed.

Ltac eqR := match goal with |- @eq _ ?a ?b => change (@eq R a b) end.

Section M.
Variable t : nat -> R.
Definition Mf (k i : nat) (x : R) : R := ratio (INR k) (t (i + k)%nat - t i) * Bspline t k i x.
Definition knots_of (k i : nat) : list R := map t (seq i (S k)).

Lemma knots_front k i : knots_of (S k) i = t i :: knots_of k (S i). Proof. reflexivity. Qed.
Lemma knots_back k i : knots_of (S k) i = knots_of k i ++ (t (i + S k)%nat :: nil).
Proof. unfold knots_of. rewrite (seq_S (S k)), map_app. reflexivity. Qed.

Lemma Mf_zero k i x : t (i + k)%nat = t i -> Mf k i x = 0.
Proof. intros E. unfold Mf. rewrite E, Rminus_eq_0, ratio_0. ring. Qed.
Lemma Mf_S k i x : (1 <= k)%nat -> t i < t (i + S k)%nat ->
  Mf (S k) i x = INR (S k) / (INR k * (t (i + S k)%nat - t i)) * ((x - t i) * Mf k i x + (t (i + S k)%nat - x) * Mf k (i + 1) x).
Proof.
  intros Hk HT. unfold Mf at 1. rewrite ratio_val by lra. rewrite Bspline_S by lia.
  assert (PK : 0 < INR k) by (apply lt_0_INR; lia).
  assert (W1 : ratio (x - t i) (t (i + k)%nat - t i) * Bspline t k i x = (x - t i) * Mf k i x / INR k).
  { unfold Mf. destruct (Req_dec (t (i + k)%nat) (t i)) as [Q|Q]; [rewrite Q, Rminus_eq_0, !ratio_0; unfold Rdiv; ring|]. rewrite !ratio_val by lra. field. split; lra. }
  assert (W2 : ratio (t (i + S k)%nat - x) (t (i + S k)%nat - t (i + 1)%nat) * Bspline t k (i + 1) x = (t (i + S k)%nat - x) * Mf k (i + 1) x / INR k).
  { unfold Mf. replace (i + 1 + k)%nat with (i + S k)%nat by lia. destruct (Req_dec (t (i + S k)%nat) (t (i + 1)%nat)) as [Q|Q]; [rewrite Q, Rminus_eq_0, !ratio_0; unfold Rdiv; ring|]. rewrite !ratio_val by lra. field. split; lra. }
  rewrite W1, W2. field. split; lra.
Qed.

Lemma is_RInt_eq (f : R -> R) a b v w : is_RInt f a b v -> v = w -> is_RInt f a b w. Proof. intros H <-. exact H. Qed.

Lemma pow_integral p q m : is_RInt (fun x => x ^ m) p q ((q ^ S m - p ^ S m) / INR (S m)).
Proof.
  apply (is_RInt_eq _ _ _ (minus (q ^ S m / INR (S m)) (p ^ S m / INR (S m)))).
  2:{ unfold minus, plus, opp. cbn -[INR pow]. field. apply Rgt_not_eq, INR_S_pos. }
  apply (is_RInt_derive (fun x => x ^ S m / INR (S m))).
  - intros x _. auto_derive; [auto|]. cbn [pred]. replace (match m with O => 1 | S _ => INR m + 1 end) with (INR (S m)) by reflexivity. field. apply Rgt_not_eq, INR_S_pos.
  - intros x _. apply (@ex_derive_continuous R_AbsRing R_NormedModule). auto_derive. auto.
Qed.

(** the base case: order one *)
Lemma moment_one i m lo hi : lo <= t i -> t (i + 1)%nat <= hi -> t i < t (i + 1)%nat ->
  is_RInt (fun x => x ^ m * Mf 1 i x) lo hi (cf 1 m * hom (knots_of 1 i) m).
Proof.
  intros HL HH HT. set (p := t i) in *. set (q := t (i + 1)%nat) in *.
  assert (V : forall x, Mf 1 i x = / (q - p) * (if (Rleb p x && Rltb x q)%bool then 1 else 0)).
  { intros x. unfold Mf. fold p q. rewrite ratio_val by lra. cbn [Bspline INR]. fold p q. unfold Rdiv. ring. }
  assert (HK : hom (knots_of 1 i) m * (q - p) = q ^ S m - p ^ S m).
  { unfold knots_of. cbn [seq map]. replace (S i) with (i + 1)%nat by lia. fold p q.
    assert (S1 : forall m, hom (q :: nil) m = q ^ m). { induction m0 as [|m0 IH]; [reflexivity|]. rewrite hom_first, IH. cbn. ring. }
    induction m as [|m IH]; [rewrite hom_0; cbn; ring|]. rewrite hom_first, S1, Rmult_plus_distr_r. rewrite Rmult_assoc, IH. cbn. ring. }
  apply (is_RInt_eq _ _ _ (plus (plus 0 (/ (q - p) * ((q ^ S m - p ^ S m) / INR (S m)))) 0)).
  2:{ unfold plus. cbn -[INR pow hom cf]. rewrite Rplus_0_r, Rplus_0_l. rewrite <- HK. cbn [cf]. change (1 + m)%nat with (S m). change (INR 1) with 1. change (hom [t i; t (S i)] m) with (hom (knots_of 1 i) m). field. split; [apply Rgt_not_eq, INR_S_pos|lra]. }
  apply (@is_RInt_Chasles R_NormedModule _ _ q); [apply (@is_RInt_Chasles R_NormedModule _ _ p)|].
  - apply (is_RInt_ext (fun _ => 0)); [|apply (is_RInt_eq _ _ _ (scal (p - lo) 0)); [apply (@is_RInt_const R_NormedModule)|unfold scal; cbn; unfold mult; cbn; ring]].
    intros x. rewrite Rmin_left, Rmax_right by lra. intros [H1 H2]. rewrite V, Rleb_f by lra. cbn. ring.
  - apply (is_RInt_ext (fun x => scal (/ (q - p)) (x ^ m))); [|apply (@is_RInt_scal R_NormedModule); apply pow_integral].
    intros x. rewrite Rmin_left, Rmax_right by lra. intros [H1 H2]. rewrite V, Rleb_t, Rltb_t by lra. cbn [andb]. unfold scal. cbn. unfold mult. cbn. ring.
  - apply (is_RInt_ext (fun _ => 0)); [|apply (is_RInt_eq _ _ _ (scal (hi - q) 0)); [apply (@is_RInt_const R_NormedModule)|unfold scal; cbn; unfold mult; cbn; ring]].
    intros x. rewrite Rmin_left, Rmax_right by lra. intros [H1 H2]. rewrite V, (Rltb_f x q) by lra. rewrite andb_false_r. change (0 = x ^ m * (/ (q - p) * 0)). ring.
Qed.

Lemma equal_knots k i : (forall j, (i <= j < i + k)%nat -> t j <= t (S j)) -> t (i + k)%nat = t i -> knots_of k i = repeat (t i) (S k).
Proof.
  intros HM HE. assert (G : forall j, (i <= j <= i + k)%nat -> t j = t i).
  { intros j Hj. apply Rle_antisym.
    - rewrite <- HE. replace (i + k)%nat with (j + (i + k - j))%nat by lia. apply mono_le; [lia|intros; apply HM; lia].
    - replace j with (i + (j - i))%nat by lia. apply mono_le; [lia|intros; apply HM; lia]. }
  unfold knots_of. assert (R : forall n a, (i <= a)%nat -> (a + n <= i + k + 1)%nat -> map t (seq a n) = repeat (t i) n).
  { induction n as [|n IH]; intros a H1 H2; [reflexivity|]. cbn [seq map repeat]. rewrite G, IH by lia. reflexivity. }
  apply R; lia.
Qed.

Lemma moments k : (1 <= k)%nat -> forall i m lo hi, (forall j, (i <= j < i + k)%nat -> t j <= t (S j)) -> lo <= t i -> t (i + k)%nat <= hi -> t i < t (i + k)%nat ->
  is_RInt (fun x => x ^ m * Mf k i x) lo hi (cf k m * hom (knots_of k i) m).
Proof.
  intros Hk. induction k as [|k IH]; [lia|]. intros i m lo hi HM HL HH HT. destruct (Nat.eq_dec k 0) as [->|NZ]; [apply moment_one; auto|].
  specialize (IH ltac:(lia)). set (p := t i) in *. set (q := t (i + S k)%nat) in *.
  assert (PK : 0 < INR k) by (apply lt_0_INR; lia).
  assert (I1 : is_RInt (fun x => x ^ m * ((x - p) * Mf k i x)) lo hi (cf k (S m) * hom (knots_of k i) (S m) - p * (cf k m * hom (knots_of k i) m))).
  { destruct (Req_dec (t (i + k)%nat) (t i)) as [Q|Q].
    - apply (is_RInt_ext (fun _ => 0)); [intros x _; rewrite Mf_zero by auto; eqR; ring|]. rewrite equal_knots by (auto; intros; apply HM; lia). rewrite (Rmult_comm (cf k (S m))), (Rmult_comm (cf k m)), !hom_repeat. fold p. cbn [pow].
      apply (is_RInt_eq _ _ _ (scal (hi - lo) 0)); [apply (@is_RInt_const R_NormedModule)|unfold scal; cbn; unfold mult; cbn; ring].
    - assert (T1 : t i < t (i + k)%nat). { assert (t i <= t (i + k)%nat) by (apply mono_le; [lia|intros; apply HM; lia]). lra. }
      assert (T2 : t (i + k)%nat <= hi). { apply Rle_trans with (t (i + S k)%nat); auto. replace (i + S k)%nat with (S (i + k)) by lia. apply HM. lia. }
      pose proof (IH i (S m) lo hi ltac:(intros; apply HM; lia) HL T2 T1) as A. pose proof (IH i m lo hi ltac:(intros; apply HM; lia) HL T2 T1) as B.
      eapply is_RInt_eq; [eapply is_RInt_ext; [|apply (@is_RInt_minus R_NormedModule _ _ _ _ _ _ A (@is_RInt_scal R_NormedModule _ _ _ p _ B))]|].
      + intros x _. eqR. unfold minus, plus, opp, scal. cbn -[pow cf hom knots_of]. unfold mult. cbn -[pow cf hom knots_of]. cbn [pow]. ring.
      + eqR. unfold minus, plus, opp, scal. cbn -[pow cf hom knots_of]. unfold mult. cbn -[pow cf hom knots_of]. cbn [pow]. ring. }
  assert (I2 : is_RInt (fun x => x ^ m * ((q - x) * Mf k (i + 1) x)) lo hi (q * (cf k m * hom (knots_of k (i + 1)) m) - cf k (S m) * hom (knots_of k (i + 1)) (S m))).
  { assert (EQ : (i + 1 + k = i + S k)%nat) by lia.
    destruct (Req_dec (t (i + 1 + k)%nat) (t (i + 1)%nat)) as [Q|Q].
    - apply (is_RInt_ext (fun _ => 0)); [intros x _; rewrite Mf_zero by auto; eqR; ring|]. rewrite equal_knots by (auto; intros; apply HM; lia). rewrite (Rmult_comm (cf k (S m))), (Rmult_comm (cf k m)), !hom_repeat.
      rewrite <- Q, EQ. fold q. cbn [pow].
      apply (is_RInt_eq _ _ _ (scal (hi - lo) 0)); [apply (@is_RInt_const R_NormedModule)|unfold scal; cbn; unfold mult; cbn; ring].
    - assert (T1 : t (i + 1)%nat < t (i + 1 + k)%nat). { assert (t (i + 1)%nat <= t (i + 1 + k)%nat) by (apply mono_le; [lia|intros; apply HM; lia]). lra. }
      assert (T2 : lo <= t (i + 1)%nat). { apply Rle_trans with (t i); auto. replace (i + 1)%nat with (S i) by lia. apply HM. lia. }
      assert (T3 : t (i + 1 + k)%nat <= hi) by (rewrite EQ; auto).
      pose proof (IH (i + 1)%nat (S m) lo hi ltac:(intros; apply HM; lia) T2 T3 T1) as A. pose proof (IH (i + 1)%nat m lo hi ltac:(intros; apply HM; lia) T2 T3 T1) as B.
      eapply is_RInt_eq; [eapply is_RInt_ext; [|apply (@is_RInt_minus R_NormedModule _ _ _ _ _ _ (@is_RInt_scal R_NormedModule _ _ _ q _ B) A)]|].
      + intros x _. eqR. unfold minus, plus, opp, scal. cbn -[pow cf hom knots_of]. unfold mult. cbn -[pow cf hom knots_of]. cbn [pow]. ring.
      + eqR. unfold minus, plus, opp, scal. cbn -[pow cf hom knots_of]. unfold mult. cbn -[pow cf hom knots_of]. cbn [pow]. ring. }
  set (K := INR (S k) / (INR k * (q - p))).
  eapply is_RInt_eq; [eapply is_RInt_ext; [|apply (@is_RInt_scal R_NormedModule _ _ _ K _ (@is_RInt_plus R_NormedModule _ _ _ _ _ _ I1 I2))]|].
  - intros x _. rewrite Mf_S by (auto; lia). fold p q K. eqR. unfold plus, scal. cbn -[pow]. unfold mult. cbn -[pow]. ring.
  - unfold plus, scal. cbn -[cf hom knots_of INR]. unfold mult. cbn -[cf hom knots_of INR].
    set (h := hom (knots_of (S k) i)).
    assert (H1 : hom (knots_of k i) (S m) - hom (knots_of k (i + 1)) (S m) = (p - q) * h m).
    { unfold h. pose proof (hom_last q (knots_of k i) m) as A. unfold q in A. rewrite <- knots_back in A. fold q in A.
      pose proof (hom_first p (knots_of k (S i)) m) as B. unfold p in B. rewrite <- knots_front in B. fold p in B. replace (i + 1)%nat with (S i) by lia. lra. }
    assert (H2 : q * hom (knots_of k (i + 1)) m - p * hom (knots_of k i) m = (q - p) * h m).
    { replace (i + 1)%nat with (S i) by lia. destruct m as [|m']; [unfold h; rewrite !hom_0; ring|].
      pose proof (hom_last q (knots_of k i) m') as A. unfold q in A. rewrite <- knots_back in A. fold q in A.
      pose proof (hom_first p (knots_of k (S i)) m') as B. unfold p in B. rewrite <- knots_front in B. fold p in B. fold h in A, B.
      replace (hom (knots_of k (S i)) (S m')) with (h (S m') - p * h m') by lra. replace (hom (knots_of k i) (S m')) with (h (S m') - q * h m') by lra. ring. }
    transitivity (K * (cf k (S m) * (hom (knots_of k i) (S m) - hom (knots_of k (i + 1)) (S m)) + cf k m * (q * hom (knots_of k (i + 1)) m - p * hom (knots_of k i) m))); [ring|].
    rewrite H1, H2, cf_S. cbn [cf]. unfold K. replace (S k + m)%nat with (S (k + m)) by lia.
    assert (E : INR (S (k + m)) = INR k + INR (S m)). { rewrite <- plus_INR. f_equal. lia. }
    transitivity (INR (S k) * cf k m * h m / INR k * ((INR (S (k + m)) - INR (S m)) / INR (S (k + m)))).
    + pose proof (INR_S_pos (k + m)). field. repeat split; lra.
    + pose proof (INR_S_pos (k + m)). replace (INR (S (k + m)) - INR (S m)) with (INR k) by lra. field. lra.
Qed.
End M.
