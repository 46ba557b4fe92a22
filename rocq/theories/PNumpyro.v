(** Proofs about [MNumpyro]: the Sine, Cosine and Powerlaw distributions. *)
From Verif Require Export PDistributions MNumpyro.
From Verif Require Export Spec.
Open Scope R_scope.

(** ** Sine *)
Lemma sine_lp x : 0 <= x <= PI -> nexp (sine_log_prob (Fin x)) = Fin (sin x / 2).
Proof.
  intros H. unfold sine_log_prob. cbn [nsin]. rewrite ndiv_fin by lra. assert (0 <= sin x) by (apply sin_ge_0; lra). destruct (Req_dec (sin x) 0) as [E|E].
  - rewrite E. replace (0 / 2) with 0 by lra. rewrite nlog_zero. reflexivity.
  - rewrite nlog_fin by lra. cbn [nisnan nwhere]. rewrite nexp_fin, exp_ln by lra. reflexivity.
Qed.
Lemma is_RInt_sin a x : a <= x -> is_RInt sin a x (cos a - cos x).
Proof.
  intros H. apply (FTC_eq (fun t => - cos t)); auto; [| |ring].
  - intros t _. auto_derive; auto. ring.
  - intros t _. apply ex_derive_cont. auto_derive. auto.
Qed.
Lemma sin_ab a b : 0 <= a -> a < b -> b <= PI -> 0 < cos a - cos b.
Proof. intros. pose proof (cos_decreasing_1 a b). lra. Qed.
Lemma sine_cdf_in a b x : 0 <= a -> a < b -> b <= PI -> a <= x <= b -> sine_cdf (Fin a) (Fin b) (Fin x) = Fin ((cos a - cos x) / (cos a - cos b)).
Proof.
  intros Ha Hab Hb Hx. pose proof (sin_ab a b Ha Hab Hb). unfold sine_cdf. cbn [ncos]. unfold ngt. cbn [nlt]. rewrite !Rltb_f by lra. cbn [nwhere].
  rewrite !nsub_fin, ndiv_fin by lra. apply (f_equal Fin). field. lra.
Qed.
Lemma sine_cdf_low a b x : x < a -> a < b -> sine_cdf (Fin a) (Fin b) (Fin x) = Fin 0.
Proof. intros. unfold sine_cdf, ngt. cbn [nlt]. rewrite (Rltb_t x a), (Rltb_f b x) by lra. reflexivity. Qed.
Lemma sine_cdf_high a b x : b < x -> sine_cdf (Fin a) (Fin b) (Fin x) = Fin 1.
Proof. intros. unfold sine_cdf, ngt. cbn [nlt]. rewrite (Rltb_t b x) by lra. reflexivity. Qed.
Lemma sine_icdf_in a b q : 0 <= a -> a < b -> b <= PI -> 0 <= q <= 1 ->
  exists v, sine_icdf (Fin a) (Fin b) (Fin q) = Fin v /\ a <= v <= b /\ cos v = cos a - q * (cos a - cos b).
Proof.
  intros Ha Hab Hb Hq. pose proof (sin_ab a b Ha Hab Hb) as P. set (y := cos a - q * (cos a - cos b)).
  pose proof (COS_bound a). pose proof (COS_bound b). assert (Y : cos b <= y <= cos a) by (unfold y; nra).
  exists (acos y). unfold sine_icdf. cbn [ncos]. rewrite !nsub_fin, nmul_fin, nsub_fin. fold y. cbn [nacos]. rewrite !Rleb_t by lra. cbn [andb].
  split; [auto|]. assert (CA : cos (acos y) = y) by (apply cos_acos; lra). pose proof (acos_bound y). split; [|auto].
  split; apply Rnot_lt_le; intros L; [pose proof (cos_decreasing_1 (acos y) a)|pose proof (cos_decreasing_1 b (acos y))]; lra.
Qed.
Lemma sine_all a b : 0 <= a -> a < b -> b <= PI ->
  integral_from (fun x => Fin (sin x / (cos a - cos b))) (fun x => sine_cdf (Fin a) (Fin b) (Fin x)) a b /\
  sine_cdf (Fin a) (Fin b) (Fin b) = Fin 1 /\
  (forall x, x < a -> sine_cdf (Fin a) (Fin b) (Fin x) = Fin 0) /\ (forall x, b < x -> sine_cdf (Fin a) (Fin b) (Fin x) = Fin 1) /\
  (forall q, 0 <= q <= 1 -> exists v, sine_icdf (Fin a) (Fin b) (Fin q) = Fin v /\ sine_sample (Fin a) (Fin b) (Fin q) = Fin v /\ a <= v <= b /\ sine_cdf (Fin a) (Fin b) (Fin v) = Fin q) /\
  (forall v, a <= v <= b -> exists q, 0 <= q <= 1 /\ sine_cdf (Fin a) (Fin b) (Fin v) = Fin q /\ sine_icdf (Fin a) (Fin b) (Fin q) = Fin v).
Proof.
  intros Ha Hab Hb. pose proof (sin_ab a b Ha Hab Hb) as P. split; [|split; [|split; [|split; [|split]]]].
  - exists (fun x => sin x / (cos a - cos b)). split; auto. intros x Hx. eexists. split; [apply sine_cdf_in; auto|].
    apply (is_RInt_ext (fun t => / (cos a - cos b) * sin t)); [intros; req; unfold Rdiv; ring|]. apply (is_RInt_val _ _ _ (/ (cos a - cos b) * (cos a - cos x))); [|unfold Rdiv; ring].
    apply is_RInt_scalR, is_RInt_sin. lra.
  - rewrite sine_cdf_in by lra. apply (f_equal Fin). field. lra.
  - intros. apply sine_cdf_low; auto.
  - intros. apply sine_cdf_high; auto.
  - intros q Hq. destruct (sine_icdf_in a b q Ha Hab Hb Hq) as (v & E & Hv & EC). exists v. split; auto. split; auto. split; auto. rewrite sine_cdf_in, EC by auto. apply (f_equal Fin). field. lra.
  - intros v Hv. assert (V : cos b <= cos v <= cos a).
    { split; apply cos_decr_1; lra. }
    set (q := (cos a - cos v) / (cos a - cos b)).
    assert (Q : 0 <= q <= 1). { unfold q. split; [apply Rdiv_le_0_compat; lra|]. apply Rmult_le_reg_r with (cos a - cos b); auto. unfold Rdiv. rewrite Rmult_assoc, Rinv_l; lra. }
    exists q. split; auto. split; [apply sine_cdf_in; auto|]. destruct (sine_icdf_in a b q Ha Hab Hb Q) as (w & E & Hw & EC). rewrite E. apply (f_equal Fin).
    rewrite <- (acos_cos w), <- (acos_cos v) by lra. f_equal. rewrite EC. unfold q. field. lra.
Qed.
Lemma sine_default : density_on (fun x => nexp (sine_log_prob (Fin x))) 0 PI /\
  integral_from (fun x => nexp (sine_log_prob (Fin x))) (fun x => sine_cdf (Fin 0) (Fin PI) (Fin x)) 0 PI.
Proof.
  pose proof PI_RGT_0. split.
  - exists (fun x => sin x / 2). split; [intros x Hx; split; [apply sine_lp; auto|pose proof (sin_ge_0 x); lra]|].
    apply (is_RInt_ext (fun t => / 2 * sin t)); [intros; req; unfold Rdiv; ring|]. apply (is_RInt_val _ _ _ (/ 2 * (cos 0 - cos PI))); [|rewrite cos_0, cos_PI; lra]. apply is_RInt_scalR, is_RInt_sin. lra.
  - destruct (sine_all 0 PI) as ((f & F1 & F2) & _); try lra. exists f. split; auto. intros x Hx. rewrite sine_lp by auto. rewrite <- F1 by auto. rewrite cos_0, cos_PI. apply (f_equal Fin). lra.
Qed.
Lemma sine_not_normalised a b : 0 <= a -> a < b -> b <= PI -> a <> 0 \/ b <> PI ->
  exists f I, (forall x, a <= x <= b -> nexp (sine_log_prob (Fin x)) = Fin (f x)) /\ is_RInt f a b I /\ I < 1.
Proof.
  intros Ha Hab Hb Hne. exists (fun x => sin x / 2), ((cos a - cos b) / 2). split; [intros; apply sine_lp; lra|]. split.
  - apply (is_RInt_ext (fun t => / 2 * sin t)); [intros; req; unfold Rdiv; ring|]. apply (is_RInt_val _ _ _ (/ 2 * (cos a - cos b))); [|unfold Rdiv; ring]. apply is_RInt_scalR, is_RInt_sin. lra.
  - pose proof (COS_bound a). pose proof (COS_bound b). pose proof PI_RGT_0. destruct Hne as [N|N].
    + assert (cos a < cos 0) by (apply cos_decreasing_1; lra). rewrite cos_0 in *. lra.
    + assert (cos PI < cos b) by (apply cos_decreasing_1; lra). rewrite cos_PI in *. lra.
Qed.

(** ** Cosine *)
Lemma cosine_lp x : - (PI / 2) <= x <= PI / 2 -> nexp (cosine_log_prob (Fin x)) = Fin (cos x / 2).
Proof.
  intros H. unfold cosine_log_prob. cbn [ncos]. rewrite ndiv_fin by lra. assert (0 <= cos x) by (apply cos_ge_0; lra). destruct (Req_dec (cos x) 0) as [E|E].
  - rewrite E. replace (0 / 2) with 0 by lra. rewrite nlog_zero. reflexivity.
  - rewrite nlog_fin by lra. cbn [nisnan nwhere]. rewrite nexp_fin, exp_ln by lra. reflexivity.
Qed.
Lemma is_RInt_cos a x : a <= x -> is_RInt cos a x (sin x - sin a).
Proof.
  intros H. apply (FTC_eq sin); [auto| | |ring].
  - intros t _. auto_derive; auto. ring.
  - intros t _. apply ex_derive_cont. auto_derive. auto.
Qed.
Lemma cos_ab a b : - (PI / 2) <= a -> a < b -> b <= PI / 2 -> 0 < sin b - sin a.
Proof. intros. pose proof (sin_increasing_1 a b). lra. Qed.
Lemma cosine_cdf_in a b x : - (PI / 2) <= a -> a < b -> b <= PI / 2 -> a <= x <= b -> cosine_cdf (Fin a) (Fin b) (Fin x) = Fin ((sin x - sin a) / (sin b - sin a)).
Proof.
  intros Ha Hab Hb Hx. pose proof (cos_ab a b Ha Hab Hb). unfold cosine_cdf. cbn [nsin]. unfold ngt. cbn [nlt]. rewrite !Rltb_f by lra. cbn [nwhere].
  rewrite !nsub_fin, ndiv_fin by lra. reflexivity.
Qed.
Lemma cosine_cdf_low a b x : x < a -> a < b -> cosine_cdf (Fin a) (Fin b) (Fin x) = Fin 0.
Proof. intros. unfold cosine_cdf, ngt. cbn [nlt]. rewrite (Rltb_t x a), (Rltb_f b x) by lra. reflexivity. Qed.
Lemma cosine_cdf_high a b x : b < x -> cosine_cdf (Fin a) (Fin b) (Fin x) = Fin 1.
Proof. intros. unfold cosine_cdf, ngt. cbn [nlt]. rewrite (Rltb_t b x) by lra. reflexivity. Qed.
Lemma cosine_icdf_in a b q : - (PI / 2) <= a -> a < b -> b <= PI / 2 -> 0 <= q <= 1 ->
  exists v, cosine_icdf (Fin a) (Fin b) (Fin q) = Fin v /\ a <= v <= b /\ sin v = sin a + q * (sin b - sin a).
Proof.
  intros Ha Hab Hb Hq. pose proof (cos_ab a b Ha Hab Hb) as P. set (y := sin a - q * (sin a - sin b)).
  pose proof (SIN_bound a). pose proof (SIN_bound b). assert (Y : sin a <= y <= sin b) by (unfold y; nra).
  exists (asin y). unfold cosine_icdf. cbn [nsin]. rewrite !nsub_fin, nmul_fin, nsub_fin. fold y. cbn [nasin]. rewrite !Rleb_t by lra. cbn [andb].
  split; [auto|]. assert (CA : sin (asin y) = y) by (apply sin_asin; lra). pose proof (asin_bound y). split; [|rewrite CA; unfold y; ring].
  split; apply Rnot_lt_le; intros L; [pose proof (sin_increasing_1 (asin y) a)|pose proof (sin_increasing_1 b (asin y))]; lra.
Qed.
Lemma cosine_all a b : - (PI / 2) <= a -> a < b -> b <= PI / 2 ->
  integral_from (fun x => Fin (cos x / (sin b - sin a))) (fun x => cosine_cdf (Fin a) (Fin b) (Fin x)) a b /\
  cosine_cdf (Fin a) (Fin b) (Fin b) = Fin 1 /\
  (forall x, x < a -> cosine_cdf (Fin a) (Fin b) (Fin x) = Fin 0) /\ (forall x, b < x -> cosine_cdf (Fin a) (Fin b) (Fin x) = Fin 1) /\
  (forall q, 0 <= q <= 1 -> exists v, cosine_icdf (Fin a) (Fin b) (Fin q) = Fin v /\ cosine_sample (Fin a) (Fin b) (Fin q) = Fin v /\ a <= v <= b /\ cosine_cdf (Fin a) (Fin b) (Fin v) = Fin q) /\
  (forall v, a <= v <= b -> exists q, 0 <= q <= 1 /\ cosine_cdf (Fin a) (Fin b) (Fin v) = Fin q /\ cosine_icdf (Fin a) (Fin b) (Fin q) = Fin v).
Proof.
  intros Ha Hab Hb. pose proof (cos_ab a b Ha Hab Hb) as P. split; [|split; [|split; [|split; [|split]]]].
  - exists (fun x => cos x / (sin b - sin a)). split; auto. intros x Hx. eexists. split; [apply cosine_cdf_in; auto|].
    apply (is_RInt_ext (fun t => / (sin b - sin a) * cos t)); [intros; req; unfold Rdiv; ring|]. apply (is_RInt_val _ _ _ (/ (sin b - sin a) * (sin x - sin a))); [|unfold Rdiv; ring].
    apply is_RInt_scalR, is_RInt_cos. lra.
  - rewrite cosine_cdf_in by lra. apply (f_equal Fin). field. lra.
  - intros. apply cosine_cdf_low; auto.
  - intros. apply cosine_cdf_high; auto.
  - intros q Hq. destruct (cosine_icdf_in a b q Ha Hab Hb Hq) as (v & E & Hv & EC). exists v. split; auto. split; auto. split; auto. rewrite cosine_cdf_in, EC by auto. apply (f_equal Fin). field. lra.
  - intros v Hv. assert (V : sin a <= sin v <= sin b).
    { split; apply sin_incr_1; lra. }
    set (q := (sin v - sin a) / (sin b - sin a)).
    assert (Q : 0 <= q <= 1). { unfold q. split; [apply Rdiv_le_0_compat; lra|]. apply Rmult_le_reg_r with (sin b - sin a); auto. unfold Rdiv. rewrite Rmult_assoc, Rinv_l; lra. }
    exists q. split; auto. split; [apply cosine_cdf_in; auto|]. destruct (cosine_icdf_in a b q Ha Hab Hb Q) as (w & E & Hw & EC). rewrite E. apply (f_equal Fin).
    rewrite <- (asin_sin w), <- (asin_sin v) by lra. f_equal. rewrite EC. unfold q. field. lra.
Qed.
Lemma cosine_default : density_on (fun x => nexp (cosine_log_prob (Fin x))) (- (PI / 2)) (PI / 2) /\
  integral_from (fun x => nexp (cosine_log_prob (Fin x))) (fun x => cosine_cdf (Fin (- (PI / 2))) (Fin (PI / 2)) (Fin x)) (- (PI / 2)) (PI / 2).
Proof.
  pose proof PI_RGT_0. assert (S : sin (PI / 2) - sin (- (PI / 2)) = 2) by (rewrite sin_neg, sin_PI2; lra). split.
  - exists (fun x => cos x / 2). split; [intros x Hx; split; [apply cosine_lp; auto|pose proof (cos_ge_0 x); lra]|].
    apply (is_RInt_ext (fun t => / 2 * cos t)); [intros; req; unfold Rdiv; ring|]. apply (is_RInt_val _ _ _ (/ 2 * (sin (PI / 2) - sin (- (PI / 2))))); [|rewrite S; lra]. apply is_RInt_scalR, is_RInt_cos. lra.
  - destruct (cosine_all (- (PI / 2)) (PI / 2)) as ((f & F1 & F2) & _); try lra. exists f. split; auto. intros x Hx. rewrite cosine_lp by auto. rewrite <- F1 by auto. rewrite S. reflexivity.
Qed.
Lemma cosine_not_normalised a b : - (PI / 2) <= a -> a < b -> b <= PI / 2 -> a <> - (PI / 2) \/ b <> PI / 2 ->
  exists f I, (forall x, a <= x <= b -> nexp (cosine_log_prob (Fin x)) = Fin (f x)) /\ is_RInt f a b I /\ I < 1.
Proof.
  intros Ha Hab Hb Hne. exists (fun x => cos x / 2), ((sin b - sin a) / 2). split; [intros; apply cosine_lp; lra|]. split.
  - apply (is_RInt_ext (fun t => / 2 * cos t)); [intros; req; unfold Rdiv; ring|]. apply (is_RInt_val _ _ _ (/ 2 * (sin b - sin a))); [|unfold Rdiv; ring]. apply is_RInt_scalR, is_RInt_cos. lra.
  - pose proof (SIN_bound a). pose proof (SIN_bound b). pose proof PI_RGT_0. destruct Hne as [N|N].
    + assert (sin (- (PI / 2)) < sin a) by (apply sin_increasing_1; lra). rewrite sin_neg, sin_PI2 in *. lra.
    + assert (sin b < sin (PI / 2)) by (apply sin_increasing_1; lra). rewrite sin_PI2 in *. lra.
Qed.

(** ** Powerlaw *)
Definition plF (alpha m M v : R) : R :=
  if Req_EM_T alpha (-1) then ln (v / m) / ln (M / m) else (Rpower v (1 + alpha) - Rpower m (1 + alpha)) / (Rpower M (1 + alpha) - Rpower m (1 + alpha)).
Lemma plF_m alpha m M : 0 < m < M -> plF alpha m M m = 0.
Proof.
  intros H. unfold plF. destruct (Req_EM_T alpha (-1)); unfold Rdiv; [rewrite Rinv_r, ln_1 by lra|]; ring.
Qed.
Lemma plF_int alpha m M v : 0 < m < M -> m <= v -> is_RInt (fun x => plnorm alpha m M * Rpower x alpha) m v (plF alpha m M v).
Proof.
  intros H Hv. destruct (Req_dec v m) as [->|Hne].
  - rewrite plF_m by auto. apply (is_RInt_val _ _ _ _ _ (is_RInt_point _ m)). reflexivity.
  - assert (Hv' : 0 < m < v) by lra. pose proof (plnorm_pos alpha m v Hv') as P.
    apply (is_RInt_ext (fun x => plnorm alpha m M / plnorm alpha m v * (plnorm alpha m v * Rpower x alpha))); [intros; req; field; lra|].
    apply (is_RInt_val _ _ _ (plnorm alpha m M / plnorm alpha m v * 1)); [apply is_RInt_scalR, plnorm_integral; auto|].
    unfold plF, plnorm in *. destruct (Req_EM_T alpha (-1)) as [E|E].
    + pose proof (ln_gt_0 _ (ratio_gt_1 _ _ H)). pose proof (ln_gt_0 _ (ratio_gt_1 _ _ Hv')). field. lra.
    + destruct (pl_denom_sign alpha m M H E) as [_ D1]. destruct (pl_denom_sign alpha m v Hv' E) as [_ D2]. field. lra.
Qed.
Lemma plF_lt alpha m M v w : 0 < m < M -> 0 < v -> v < w -> plF alpha m M v < plF alpha m M w.
Proof.
  intros H Hv Hw. unfold plF. destruct (Req_EM_T alpha (-1)) as [E|E].
  - pose proof (ln_gt_0 _ (ratio_gt_1 _ _ H)). apply Rmult_lt_compat_r; [apply Rinv_0_lt_compat; auto|]. apply ln_increasing; [apply Rdiv_lt_0_compat; lra|].
    apply Rmult_lt_compat_r; [apply Rinv_0_lt_compat; lra|auto].
  - destruct (Rlt_le_dec 0 (1 + alpha)) as [S|S].
    + pose proof (Rpower_lt_l v w (1 + alpha) Hv Hw S). pose proof (Rpower_lt_l m M (1 + alpha) ltac:(lra) ltac:(lra) S). apply Rmult_lt_compat_r; [apply Rinv_0_lt_compat|]; lra.
    + assert (S' : 1 + alpha < 0) by lra. pose proof (Rpower_lt_l_neg v w (1 + alpha) Hv Hw S'). pose proof (Rpower_lt_l_neg m M (1 + alpha) ltac:(lra) ltac:(lra) S').
      set (D := Rpower M (1 + alpha) - Rpower m (1 + alpha)) in *. assert (/ D < 0) by (apply Rinv_lt_0_compat; unfold D; lra). unfold Rdiv. nra.
Qed.
Lemma plF_M alpha m M : 0 < m < M -> plF alpha m M M = 1.
Proof.
  intros H. unfold plF. destruct (Req_EM_T alpha (-1)) as [E|E].
  - pose proof (ln_gt_0 _ (ratio_gt_1 _ _ H)). field. lra.
  - destruct (pl_denom_sign alpha m M H E) as [_ D1]. field. lra.
Qed.
Lemma pl_cdf_fin alpha m M v : 0 < m < M -> 0 < v -> pl_cdf (Fin alpha) (Fin m) (Fin M) (Fin v) = Fin (Rmax (Rmin (plF alpha m M v) 1) 0).
Proof.
  intros H Hv. unfold pl_cdf. cbn [neqb].
  assert (X : nwhere (Reqb alpha (-1)) (nlog (Fin v / Fin m) / nlog (Fin M / Fin m))%num
     ((npow (Fin v) (Fin alpha + Fin 1) - npow (Fin m) (Fin alpha + Fin 1)) / (npow (Fin M) (Fin alpha + Fin 1) - npow (Fin m) (Fin alpha + Fin 1)))%num = Fin (plF alpha m M v)).
  { unfold plF. destruct (Req_EM_T alpha (-1)) as [E|E].
    - rewrite Reqb_t by auto. cbn [nwhere]. pose proof (ratio_gt_1 _ _ H). pose proof (ln_gt_0 (M / m)). rewrite !ndiv_fin by lra. rewrite (nlog_fin (M / m)) by lra.
      rewrite nlog_fin by (apply Rdiv_lt_0_compat; lra). rewrite ndiv_fin by lra. reflexivity.
    - rewrite Reqb_f by auto. cbn [nwhere]. destruct (pl_denom_sign alpha m M H E) as [_ D1]. rewrite nadd_fin, (Rplus_comm alpha 1), !npow_fin by lra. rewrite !nsub_fin, ndiv_fin by auto. reflexivity. }
  rewrite X. unfold nmin, nmax, nle. unfold Rmin at 1. destruct (Rle_dec (plF alpha m M v) 1) as [L|L]; [rewrite (Rleb_t _ 1) by auto|rewrite (Rleb_f _ 1) by lra];
    unfold Rmax; destruct (Rle_dec _ 0); first [rewrite Rleb_t by auto; reflexivity|rewrite Rleb_f by lra; reflexivity].
Qed.
Lemma plF_01 alpha m M v : 0 < m < M -> m <= v <= M -> 0 <= plF alpha m M v <= 1.
Proof.
  intros H Hv. rewrite <- (plF_m alpha m M H) at 1. rewrite <- (plF_M alpha m M H). split.
  - destruct (Req_dec v m) as [->|]; [lra|]. left. apply plF_lt; lra.
  - destruct (Req_dec v M) as [->|]; [lra|]. left. apply plF_lt; lra.
Qed.
Lemma pl_cdf_in alpha m M v : 0 < m < M -> m <= v <= M -> pl_cdf (Fin alpha) (Fin m) (Fin M) (Fin v) = Fin (plF alpha m M v).
Proof. intros H Hv. rewrite pl_cdf_fin by lra. pose proof (plF_01 alpha m M v H Hv). rewrite Rmin_left, Rmax_left by lra. reflexivity. Qed.
Lemma pl_log_prob_in alpha m M v : alpha <> -1 -> 0 < m < M -> m <= v <= M ->
  nexp (pl_log_prob (Fin alpha) (Fin m) (Fin M) (Fin v)) = Fin (plnorm alpha m M * Rpower v alpha).
Proof.
  intros E H Hv. pose proof (plnorm_pos alpha m M H) as PP.
  unfold pl_log_prob. unfold ngt. cbn [nlt neqb]. rewrite !Rltb_f by lra. cbn [orb nwhere].
  rewrite Reqb_f by auto. cbn [nwhere]. destruct (pl_denom_sign alpha m M H E) as [D1 D2]. rewrite nadd_fin, !npow_fin by lra. rewrite nsub_fin, ndiv_fin by auto.
  rewrite !nlog_fin by lra. rewrite nmul_fin, nadd_fin, nexp_fin. apply (f_equal Fin). rewrite exp_plus, exp_ln by auto.
  unfold plnorm. destruct (Req_EM_T alpha (-1)); [contradiction|]. change (exp (alpha * ln v)) with (Rpower v alpha). ring.
Qed.
Lemma pl_log_prob_out alpha m M v : v < m \/ M < v -> pl_log_prob (Fin alpha) (Fin m) (Fin M) (Fin v) = Fin (- FMAX).
Proof.
  intros H. unfold pl_log_prob, ngt. cbn [nlt]. replace (Rltb v m || Rltb M v)%bool with true; [reflexivity|].
  symmetry. apply Bool.orb_true_iff. destruct H; [left|right]; apply Rltb_true; auto.
Qed.
(** with index -1 the normalisation is the ratio of the bounds instead of its logarithm *)
Lemma pl_log_prob_neg1 m M v : 0 < m < M -> m <= v <= M ->
  nexp (pl_log_prob (Fin (-1)) (Fin m) (Fin M) (Fin v)) = Fin (m / M / v).
Proof.
  intros H Hv. pose proof (ratio_gt_1 _ _ H). unfold pl_log_prob. unfold ngt. cbn [nlt neqb]. rewrite !Rltb_f by lra. cbn [orb nwhere].
  rewrite Reqb_t by auto. cbn [nwhere]. rewrite ndiv_fin by lra. rewrite !nlog_fin by lra. rewrite nneg_fin, nsub_fin, nexp_fin. apply (f_equal Fin).
  unfold Rminus. rewrite exp_plus, !exp_Ropp, !exp_ln by lra. field. lra.
Qed.
Lemma ln_lt_id x : 1 < x -> ln x < x.
Proof. intros H. pose proof (exp_ineq1 (ln x)). pose proof (ln_gt_0 x H). rewrite exp_ln in H0 by lra. lra. Qed.
Lemma pl_neg1_integral m M : 0 < m < M -> exists f I, (forall v, m <= v <= M -> nexp (pl_log_prob (Fin (-1)) (Fin m) (Fin M) (Fin v)) = Fin (f v)) /\
  is_RInt f m M I /\ I < 1.
Proof.
  intros H. pose proof (ratio_gt_1 _ _ H) as R1. exists (fun v => m / M / v), (m / M * ln (M / m)). split; [intros; apply pl_log_prob_neg1; auto|]. split.
  - apply (FTC_eq (fun v => m / M * ln v)); [lra| | |].
    + intros x Hx. auto_derive; [lra|]. field. lra.
    + intros x Hx. apply ex_derive_cont. auto_derive. lra.
    + replace (ln (M / m)) with (ln M - ln m); [ring|]. unfold Rdiv. rewrite ln_mult, ln_Rinv by (try apply Rinv_0_lt_compat; lra). ring.
  - pose proof (ln_lt_id _ R1). assert (P : 0 < m / M) by (apply Rdiv_lt_0_compat; lra). assert (Q : m / M * (M / m) = 1) by (field; lra). nra.
Qed.
Lemma pl_icdf_in alpha m M q : 0 < m < M -> 0 <= q <= 1 -> exists v, pl_icdf (Fin alpha) (Fin m) (Fin M) (Fin q) = Fin v /\ m <= v <= M /\ plF alpha m M v = q.
Proof.
  intros H Hq. pose proof (ratio_gt_1 _ _ H) as R1. pose proof (ln_gt_0 _ R1) as L1.
  assert (K : exists v, pl_icdf (Fin alpha) (Fin m) (Fin M) (Fin q) = Fin v /\ 0 < v /\ plF alpha m M v = q).
  { unfold pl_icdf. cbn [neqb]. unfold plF. destruct (Req_EM_T alpha (-1)) as [E|E].
    - rewrite Reqb_t by auto. cbn [nwhere]. rewrite ndiv_fin by lra. rewrite nlog_fin by lra. rewrite nmul_fin, nexp_fin, nmul_fin. eexists. split; [reflexivity|].
      pose proof (exp_pos (q * ln (M / m))). split; [apply Rmult_lt_0_compat; lra|]. replace (m * exp (q * ln (M / m)) / m) with (exp (q * ln (M / m))) by (field; lra). rewrite ln_exp. field. lra.
    - rewrite Reqb_f by auto. cbn [nwhere]. rewrite !nadd_fin. rewrite !(npow_fin _ (1 + alpha)) by lra. rewrite nsub_fin, nmul_fin, nadd_fin. rewrite ndiv_fin by lra.
      pose proof (Rpower_pos m (1 + alpha)). pose proof (Rpower_pos M (1 + alpha)). set (y := Rpower m (1 + alpha) + q * (Rpower M (1 + alpha) - Rpower m (1 + alpha))).
      assert (Y : 0 < y) by (unfold y; nra). rewrite npow_fin by auto. eexists. split; [reflexivity|]. split; [apply Rpower_pos|]. rewrite Rpower_mult.
      replace (1 / (1 + alpha) * (1 + alpha)) with 1 by (field; lra). rewrite Rpower_1 by auto. destruct (pl_denom_sign alpha m M H E) as [_ D2]. unfold y. field. auto. }
  destruct K as (v & E & Hv & F). exists v. split; auto. split; auto. split; apply Rnot_lt_le; intros L.
  - pose proof (plF_lt alpha m M v m H Hv L) as G. rewrite plF_m in G by auto. lra.
  - pose proof (plF_lt alpha m M M v H ltac:(lra) L) as G. rewrite plF_M in G by auto. lra.
Qed.
Lemma plF_inj alpha m M v w : 0 < m < M -> 0 < v -> 0 < w -> plF alpha m M v = plF alpha m M w -> v = w.
Proof. intros H Hv Hw E. destruct (Rtotal_order v w) as [L|[L|L]]; auto; [pose proof (plF_lt alpha m M v w H Hv L)|pose proof (plF_lt alpha m M w v H Hw L)]; lra. Qed.
(** cdf, its inverse and the samples, for every index *)
Lemma pl_quantiles alpha m M : 0 < m < M ->
  integral_from (fun x => Fin (plnorm alpha m M * Rpower x alpha)) (fun x => pl_cdf (Fin alpha) (Fin m) (Fin M) (Fin x)) m M /\
  pl_cdf (Fin alpha) (Fin m) (Fin M) (Fin M) = Fin 1 /\
  (forall x, 0 < x < m -> pl_cdf (Fin alpha) (Fin m) (Fin M) (Fin x) = Fin 0) /\ (forall x, M < x -> pl_cdf (Fin alpha) (Fin m) (Fin M) (Fin x) = Fin 1) /\
  (forall q, 0 <= q <= 1 -> exists v, pl_icdf (Fin alpha) (Fin m) (Fin M) (Fin q) = Fin v /\ pl_sample (Fin alpha) (Fin m) (Fin M) (Fin q) = Fin v /\ m <= v <= M /\ pl_cdf (Fin alpha) (Fin m) (Fin M) (Fin v) = Fin q) /\
  (forall v, m <= v <= M -> exists q, 0 <= q <= 1 /\ pl_cdf (Fin alpha) (Fin m) (Fin M) (Fin v) = Fin q /\ pl_icdf (Fin alpha) (Fin m) (Fin M) (Fin q) = Fin v).
Proof.
  intros H. split; [|split; [|split; [|split; [|split]]]].
  - exists (fun x => plnorm alpha m M * Rpower x alpha). split; auto. intros x Hx. eexists. split; [apply pl_cdf_in; auto|]. apply plF_int; auto. lra.
  - rewrite pl_cdf_in, plF_M by lra. reflexivity.
  - intros x Hx. rewrite pl_cdf_fin by lra. pose proof (plF_lt alpha m M x m H ltac:(lra) ltac:(lra)) as G. rewrite plF_m in G by auto. rewrite Rmin_left, Rmax_right by lra. reflexivity.
  - intros x Hx. rewrite pl_cdf_fin by lra. pose proof (plF_lt alpha m M M x H ltac:(lra) ltac:(lra)) as G. rewrite plF_M in G by auto. rewrite Rmin_right, Rmax_left by lra. reflexivity.
  - intros q Hq. destruct (pl_icdf_in alpha m M q H Hq) as (v & E & Hv & F). exists v. split; auto. split; auto. split; auto. rewrite pl_cdf_in, F by auto. reflexivity.
  - intros v Hv. pose proof (plF_01 alpha m M v H Hv) as Q. exists (plF alpha m M v). split; auto. split; [apply pl_cdf_in; auto|].
    destruct (pl_icdf_in alpha m M _ H Q) as (w & E & Hw & F). rewrite E. apply (f_equal Fin). apply (plF_inj alpha m M); lra.
Qed.
Lemma pl_density alpha m M : 0 < m < M -> alpha <> -1 ->
  density_on (fun x => nexp (pl_log_prob (Fin alpha) (Fin m) (Fin M) (Fin x))) m M /\
  integral_from (fun x => nexp (pl_log_prob (Fin alpha) (Fin m) (Fin M) (Fin x))) (fun x => pl_cdf (Fin alpha) (Fin m) (Fin M) (Fin x)) m M /\
  proportional_on (fun x => nexp (pl_log_prob (Fin alpha) (Fin m) (Fin M) (Fin x))) (fun x => Rpower x alpha) m M.
Proof.
  intros H E. pose proof (plnorm_pos alpha m M H). split; [|split].
  - exists (fun x => plnorm alpha m M * Rpower x alpha). split; [|apply plnorm_integral; auto]. intros x Hx. split; [apply pl_log_prob_in; auto|]. pose proof (Rpower_pos x alpha). nra.
  - destruct (pl_quantiles alpha m M H) as ((f & F1 & F2) & _). exists f. split; auto. intros x Hx. rewrite pl_log_prob_in by auto. apply F1; auto.
  - exists (plnorm alpha m M). split; auto. intros x Hx. apply pl_log_prob_in; auto.
Qed.
(** a negative value can have a positive cdf *)
Lemma pl_cdf_negative m M : 0 < m < M -> pl_cdf (Fin 1) (Fin m) (Fin M) (Fin (- M)) = Fin 1.
Proof.
  intros H. unfold pl_cdf. cbn [neqb]. rewrite Reqb_f by lra. cbn [nwhere]. rewrite nadd_fin. replace (1 + 1) with 2 by lra.
  rewrite (npow_fin m 2), (npow_fin M 2) by lra. cbn [npow]. unfold npowR. rewrite Rltb_f by lra. rewrite Reqb_f by lra. assert (I : Int_part 2 = 2%Z).
  { destruct (base_Int_part 2) as [B1 B2]. apply le_IZR in B1. assert (B3 : IZR 1 < IZR (Int_part 2)) by lra. apply lt_IZR in B3. lia. }
  rewrite I. rewrite Reqb_t by lra. replace (powerRZ (- M) 2) with (M ^ 2) by (unfold powerRZ; change (Pos.to_nat 2) with 2%nat; ring). rewrite <- (Rpower_pow 2 M) by lra. replace (INR 2) with 2 by (cbn; ring).
  pose proof (Rpower_lt_l m M 2 ltac:(lra) ltac:(lra) ltac:(lra)). rewrite !nsub_fin. rewrite ndiv_fin by lra.
  replace ((Rpower M 2 - Rpower m 2) / (Rpower M 2 - Rpower m 2)) with 1 by (field; lra). unfold nmin, nmax, nle. rewrite Rleb_t by lra. rewrite Rleb_f by lra. reflexivity.
Qed.
Lemma pl_quantiles' alpha m M : 0 < m < M ->
  (exists p, density_on p m M /\ proportional_on p (fun x => Rpower x alpha) m M /\ integral_from p (fun x => pl_cdf (Fin alpha) (Fin m) (Fin M) (Fin x)) m M) /\
  pl_cdf (Fin alpha) (Fin m) (Fin M) (Fin M) = Fin 1 /\
  (forall x, 0 < x < m -> pl_cdf (Fin alpha) (Fin m) (Fin M) (Fin x) = Fin 0) /\ (forall x, M < x -> pl_cdf (Fin alpha) (Fin m) (Fin M) (Fin x) = Fin 1) /\
  (forall q, 0 <= q <= 1 -> exists v, pl_icdf (Fin alpha) (Fin m) (Fin M) (Fin q) = Fin v /\ pl_sample (Fin alpha) (Fin m) (Fin M) (Fin q) = Fin v /\ m <= v <= M /\ pl_cdf (Fin alpha) (Fin m) (Fin M) (Fin v) = Fin q) /\
  (forall v, m <= v <= M -> exists q, 0 <= q <= 1 /\ pl_cdf (Fin alpha) (Fin m) (Fin M) (Fin v) = Fin q /\ pl_icdf (Fin alpha) (Fin m) (Fin M) (Fin q) = Fin v).
Proof.
  intros H. destruct (pl_quantiles alpha m M H) as (I & R). split; [|exact R]. exists (fun x => Fin (plnorm alpha m M * Rpower x alpha)).
  pose proof (plnorm_pos alpha m M H). split; [|split; [|exact I]].
  - exists (fun x => plnorm alpha m M * Rpower x alpha). split; [|apply plnorm_integral; auto]. intros x Hx. split; [reflexivity|]. apply Rmult_le_pos; [lra|left; apply Rpower_pos].
  - exists (plnorm alpha m M). split; auto.
Qed.
