(** Proofs about [MSmoothing]. *)
From Verif Require Export NumFacts ArrFacts MSmoothing Spec.
Open Scope list_scope.
Open Scope R_scope.

Fixpoint rdiff (l : list R) : list R :=
  match l with a :: ((b :: _) as r) => (b - a) :: rdiff r | _ => [] end.
Fixpoint rdiffn (n : nat) (l : list R) : list R := match n with O => l | S d => rdiffn d (rdiff l) end.

Lemma ndiff_fin l : ndiff (map Fin l) = map Fin (rdiff l).
Proof. induction l as [|a [|b r] IH]; cbn; auto. f_equal. exact IH. Qed.
Lemma ndiffn_fin n : forall l, ndiffn n (map Fin l) = map Fin (rdiffn n l).
Proof. induction n; intros; cbn; auto. rewrite ndiff_fin. auto. Qed.
Lemma ndot_fin l l' : ndot (map Fin l) (map Fin l') = Fin (Rlsum (map2 Rmult l l')).
Proof.
  unfold ndot. replace (map2 nmul (map Fin l) (map Fin l')) with (map Fin (map2 Rmult l l')).
  - apply nsum_fin.
  - revert l'; induction l as [|a l IH]; intros [|b l']; cbn; auto. f_equal; auto.
Qed.
Definition sumsq (l : list R) := Rlsum (map (fun x => x * x) l).
Lemma map2_diag (l : list R) : map2 Rmult l l = map (fun x => x * x) l.
Proof. induction l; cbn; f_equal; auto. Qed.
Lemma apply_fin l v n :
  apply_difference_prior (map Fin l) (Fin v) n = Fin (- (1 / 2) * v * sumsq (rdiffn n l)).
Proof. unfold apply_difference_prior. rewrite ndiffn_fin, ndot_fin, map2_diag, !nmul_fin. reflexivity. Qed.

Lemma sumsq_nonneg l : 0 <= sumsq l.
Proof. unfold sumsq. induction l; cbn [map Rlsum]; nra. Qed.
Lemma sumsq_zero l : sumsq l = 0 <-> Forall (fun x => x = 0) l.
Proof.
  unfold sumsq. induction l as [|a l IH]; cbn [map Rlsum]; split; intros H; auto.
  - pose proof (sumsq_nonneg l) as P. unfold sumsq in P. constructor; [nra|]. apply IH. nra.
  - inversion H; subst. rewrite (proj2 IH) by auto. lra.
Qed.
Lemma rdiff_scal k l : rdiff (map (Rmult k) l) = map (Rmult k) (rdiff l).
Proof. induction l as [|a [|b r] IH]; cbn; auto. f_equal; [lra|exact IH]. Qed.
Lemma rdiffn_scal k n : forall l, rdiffn n (map (Rmult k) l) = map (Rmult k) (rdiffn n l).
Proof. induction n; intros; cbn; auto. rewrite rdiff_scal; auto. Qed.
Lemma sumsq_scal k l : sumsq (map (Rmult k) l) = k * k * sumsq l.
Proof. unfold sumsq. induction l; cbn [map Rlsum]; [ring|]. rewrite IHl. ring. Qed.

Lemma rdiff_snoc l a b : rdiff (l ++ [a; b]) = rdiff (l ++ (a :: [])) ++ (b - a :: []).
Proof.
  induction l as [|c l IH]; [reflexivity|].
  destruct l as [|d l]; [reflexivity|]. cbn [app] in *. cbn [rdiff]. rewrite <- app_comm_cons. f_equal. exact IH.
Qed.
Lemma rdiff_rev l : rdiff (rev l) = map (Rmult (-1)) (rev (rdiff l)).
Proof.
  induction l as [|a [|b r] IH]; [reflexivity|reflexivity|].
  cbn [rev rdiff]. cbn [rev] in IH. rewrite <- app_assoc. cbn [app]. rewrite rdiff_snoc, IH.
  rewrite map_app. cbn [map]. do 2 f_equal. lra.
Qed.
Lemma sumsq_rev l : sumsq (rev l) = sumsq l.
Proof.
  unfold sumsq. induction l; auto. cbn [rev]. rewrite map_app, Rlsum_app, IHl. cbn [map Rlsum]. ring.
Qed.
Lemma rdiffn_rev n : forall l, sumsq (rdiffn n (rev l)) = sumsq (rdiffn n l).
Proof.
  induction n; intros l; cbn [rdiffn]; [apply sumsq_rev|].
  rewrite rdiff_rev, rdiffn_scal, sumsq_scal, IHn. ring.
Qed.

Lemma rdiff_length l : length (rdiff l) = (length l - 1)%nat.
Proof. induction l as [|a [|b r] IH]; auto. cbn [rdiff length] in *. rewrite IH. lia. Qed.
Lemma rdiff_nth l i : (S i < length l)%nat -> nth i (rdiff l) 0 = nth (S i) l 0 - nth i l 0.
Proof.
  revert i; induction l as [|a [|b r] IH]; cbn [length]; intros i Hi; try lia.
  destruct i; [reflexivity|]. change (nth (S i) (rdiff (a :: b :: r)) 0) with (nth i (rdiff (b :: r)) 0).
  rewrite IH by (cbn [length]; lia). reflexivity.
Qed.

(** polynomials: a coefficient list, constant term first *)
Lemma peval_scal k p x : peval (map (Rmult k) p) x = k * peval p x.
Proof. induction p; cbn [map peval]; [ring|rewrite IHp; ring]. Qed.
Fixpoint padd (p q : list R) : list R :=
  match p, q with [], q => q | p, [] => p | a :: p, b :: q => (a + b) :: padd p q end.
Lemma padd_eval p : forall q x, peval (padd p q) x = peval p x + peval q x.
Proof. induction p as [|a p IH]; intros [|b q] x; cbn [padd peval]; try ring. rewrite IH. ring. Qed.
Lemma padd_length p : forall q, length (padd p q) = Nat.max (length p) (length q).
Proof. induction p as [|a p IH]; intros [|b q]; cbn [padd length]; try lia. rewrite IH. lia. Qed.

(** shift p(x+1), same length *)
Lemma shift_exists p : exists q, length q = length p /\ forall x, peval q x = peval p (x + 1).
Proof.
  induction p as [|a p (q & Hl & Hq)]; [exists []; auto|].
  exists (padd (a :: q) q). split.
  - rewrite padd_length. cbn [length]. lia.
  - intros x. rewrite padd_eval. cbn [peval]. rewrite Hq. ring.
Qed.
(** the difference of a polynomial with n+1 coefficients has n coefficients *)
Lemma delta_exists p : exists q, length q = (length p - 1)%nat /\ forall x, peval q x = peval p (x + 1) - peval p x.
Proof.
  induction p as [|a p (q & Hl & Hq)]; [exists []; cbn; split; auto; intros; ring|].
  destruct (shift_exists p) as (s & Sl & Hs).
  destruct p as [|b p].
  - exists []. split; auto. intros x. cbn [peval]. ring.
  - exists (padd s (0 :: q)). split.
    + rewrite padd_length. cbn [length] in *. lia.
    + intros x. rewrite padd_eval, Hs. cbn [peval]. cbn [peval] in Hq. rewrite Hq. ring.
Qed.
(** (x+1)^(n+1) - x^(n+1) = (n+1) x^n + lower *)
Lemma power_delta n : exists l, length l = n /\ forall x, (x + 1) ^ S n - x ^ S n = INR (S n) * x ^ n + peval l x.
Proof.
  induction n as [|n (l & Hl & H)]; [exists []; split; auto; intros; cbn; ring|].
  (* (x+1)^(n+2) - x^(n+2) = (x+1)((x+1)^(n+1) - x^(n+1)) + x^(n+1) *)
  set (mono := repeat 0 n ++ (INR (S n) :: [])).
  assert (Hm : forall x k m, peval (repeat 0 m ++ (k :: [])) x = k * x ^ m).
  { intros x k m. induction m; cbn [repeat app peval pow]; [ring|rewrite IHm; ring]. }
  exists (padd mono (padd l (0 :: l))). split.
  - rewrite !padd_length. unfold mono. rewrite app_length, repeat_length. cbn [length]. lia.
  - intros x. rewrite !padd_eval. unfold mono. rewrite Hm. cbn [peval].
    replace ((x + 1) ^ S (S n) - x ^ S (S n)) with ((x + 1) * ((x + 1) ^ S n - x ^ S n) + x ^ S n) by (cbn [pow]; ring).
    rewrite H. rewrite (S_INR (S n)). cbn [pow]. ring.
Qed.
Lemma monomial_eval x k m : peval (repeat 0 m ++ (k :: [])) x = k * x ^ m.
Proof. induction m; cbn [repeat app peval pow]; [ring|rewrite IHm; ring]. Qed.
Lemma peval_snoc p a x : peval (p ++ (a :: [])) x = peval p x + a * x ^ length p.
Proof. induction p; cbn [app peval length pow]; [ring|rewrite IHp; ring]. Qed.
(** every polynomial has a polynomial antidifference with one more coefficient *)
Lemma antidelta_exists n : forall p, length p = n ->
  exists q, length q = S n /\ forall x, peval q (x + 1) - peval q x = peval p x.
Proof.
  induction n as [|n IH]; intros p Hp.
  - destruct p; [|discriminate]. exists (0 :: []). split; auto. intros; cbn; ring.
  - destruct (@exists_last _ p) as (p' & a & ->); [intros ->; discriminate|].
    rewrite app_length in Hp. cbn [length] in Hp. assert (Hp' : length p' = n) by lia.
    destruct (power_delta n) as (l & Hl & H).
    assert (HN : INR (S n) <> 0) by (apply not_0_INR; lia).
    destruct (IH (padd p' (map (Rmult (- (a / INR (S n)))) l))) as (q & Hq & Eq).
    { rewrite padd_length, map_length, Hl, Hp'. apply Nat.max_id. }
    exists (padd q (repeat 0 (S n) ++ (a / INR (S n) :: []))). split.
    + rewrite padd_length, app_length, repeat_length, Hq. cbn [length]. lia.
    + intros x. rewrite !padd_eval, !monomial_eval.
      replace (peval q (x + 1) + a / INR (S n) * (x + 1) ^ S n - (peval q x + a / INR (S n) * x ^ S n))
        with (peval q (x + 1) - peval q x + a / INR (S n) * ((x + 1) ^ S n - x ^ S n)) by ring.
      rewrite Eq, H, padd_eval, peval_scal, peval_snoc, Hp'.
      replace (a / INR (S n) * (INR (S n) * x ^ n + peval l x)) with (a * x ^ n + a / INR (S n) * peval l x) by (field; auto).
      ring.
Qed.

Definition is_poly (n : nat) (l : list R) : Prop :=
  exists p, length p = n /\ forall i, (i < length l)%nat -> nth i l 0 = peval p (INR i).

Lemma poly_diff n l : is_poly (S n) l <-> is_poly n (rdiff l).
Proof.
  split.
  - intros (p & Hp & H). destruct (delta_exists p) as (q & Hq & E). exists q. split; [lia|].
    intros i Hi. rewrite rdiff_length in Hi. rewrite rdiff_nth by lia. rewrite !H by lia.
    rewrite E, S_INR. reflexivity.
  - intros (p & Hp & H). destruct (antidelta_exists n p Hp) as (q & Hq & E).
    destruct l as [|a l].
    { exists q. split; auto. cbn; intros; lia. }
    exists (padd (a - peval q 0 :: []) q). split; [rewrite padd_length, Hq; cbn [length]; lia|].
    intros i. induction i as [|i IH]; intros Hi.
    + rewrite padd_eval. cbn [nth peval INR]. ring.
    + specialize (IH ltac:(lia)). specialize (H i). rewrite rdiff_length, rdiff_nth in H by lia.
      specialize (H ltac:(lia)).
      replace (nth (S i) (a :: l) 0) with (nth i (a :: l) 0 + peval p (INR i)) by lra.
      rewrite IH, !padd_eval, S_INR, <- E. cbn [peval]. ring.
Qed.
Lemma zero_iff_poly n : forall l, Forall (fun x => x = 0) (rdiffn n l) <-> is_poly n l.
Proof.
  induction n as [|n IH]; intros l; cbn [rdiffn].
  - split.
    + intros H. exists []. split; auto. intros i Hi. cbn. rewrite Forall_forall in H. apply H. apply nth_In; auto.
    + intros (p & Hp & H). destruct p; [|discriminate]. apply Forall_forall. intros x Hx.
      destruct (In_nth l x 0 Hx) as (i & Hi & <-). rewrite H by auto. reflexivity.
  - rewrite IH. symmetry. apply poly_diff.
Qed.

Lemma rdiffn_snd n : forall l, rdiffn (S n) l = rdiff (rdiffn n l).
Proof. induction n; intros l; [reflexivity|]. change (rdiffn (S (S n)) l) with (rdiffn (S n) (rdiff l)). rewrite IHn. reflexivity. Qed.

Lemma difference_penalty c v n :
  exists x, apply_difference_prior (map Fin c) (Fin v) n = Fin x /\
    (0 <= v -> x <= 0) /\
    (forall k, apply_difference_prior (map (fun y => Fin (k * y)) c) (Fin v) n = Fin (k * k * x)) /\
    apply_difference_prior (rev (map Fin c)) (Fin v) n = Fin x /\
    (0 < v -> (x = 0 <-> exists p, length p = n /\ forall i, (i < length c)%nat -> nth i c 0 = peval p (INR i))).
Proof.
  eexists. split; [apply apply_fin|]. pose proof (sumsq_nonneg (rdiffn n c)).
  split; [|split; [|split]].
  - intros. nra.
  - intros k. rewrite <- (map_map (Rmult k) Fin), apply_fin, rdiffn_scal, sumsq_scal. f_equal. ring.
  - rewrite <- map_rev, apply_fin, rdiffn_rev. reflexivity.
  - intros Hv. change (exists p, length p = n /\ forall i, (i < length c)%nat -> nth i c 0 = peval p (INR i)) with (is_poly n c).
    rewrite <- zero_iff_poly, <- sumsq_zero. split; [nra|intros ->; lra].
Qed.

(** order 1 in closed form: minus half the precision times the sum of squared neighbouring differences *)
Lemma difference_penalty_order1 c v :
  apply_difference_prior (map Fin c) (Fin v) 1
  = Fin (- (v / 2) * Rlsum (map (fun i => (nth (S i) c 0 - nth i c 0) ^ 2) (seq 0 (length c - 1)))).
Proof.
  rewrite apply_fin. f_equal. replace (-(1/2) * v) with (- (v / 2)) by lra. f_equal. cbn [rdiffn]. unfold sumsq. f_equal.
  apply nth_ext with (d := 0 * 0) (d' := (nth (S 0) c 0 - nth 0 c 0) ^ 2).
  - rewrite !map_length, seq_length. apply rdiff_length.
  - intros i Hi. rewrite map_length in Hi. rewrite rdiff_length in Hi.
    rewrite (map_nth (fun x => x * x)). rewrite rdiff_nth by lia.
    rewrite (map_nth (fun i => (nth (S i) c 0 - nth i c 0) ^ 2)). rewrite seq_nth by lia. cbn [Nat.add]. ring.
Qed.
Lemma difference_order2_nth c i : (S (S i) < length c)%nat ->
  nth i (rdiffn 2 c) 0 = nth (S (S i)) c 0 - 2 * nth (S i) c 0 + nth i c 0.
Proof.
  intros H. cbn [rdiffn]. rewrite rdiff_nth by (rewrite rdiff_length; lia). rewrite !rdiff_nth by lia. ring.
Qed.
