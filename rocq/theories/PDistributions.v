(** Proofs about [MDistributions]. *)
From Verif Require Export Calc MDistributions.
Open Scope R_scope.

(** ** power law *)
Definition plnorm (alpha low high : R) : R :=
  if Req_EM_T alpha (-1) then / ln (high / low)
  else (1 + alpha) / (Rpower high (1 + alpha) - Rpower low (1 + alpha)).

Lemma pl_denom_sign alpha low high : 0 < low < high -> alpha <> -1 ->
  0 < (1 + alpha) / (Rpower high (1 + alpha) - Rpower low (1 + alpha)) /\
  Rpower high (1 + alpha) - Rpower low (1 + alpha) <> 0.
Proof.
  intros [Hl Hh] Ha.
  destruct (Rlt_le_dec 0 (1 + alpha)) as [Hp|Hn].
  - pose proof (Rpower_lt_l low high (1 + alpha) Hl Hh Hp).
    split; [apply Rdiv_lt_0_compat|]; lra.
  - assert (1 + alpha < 0) as Hn' by lra.
    pose proof (Rpower_lt_l_neg low high (1 + alpha) Hl Hh Hn').
    split; [|lra].
    replace ((1 + alpha) / (Rpower high (1 + alpha) - Rpower low (1 + alpha)))
      with ((- (1 + alpha)) / (Rpower low (1 + alpha) - Rpower high (1 + alpha))) by (field; lra).
    apply Rdiv_lt_0_compat; lra.
Qed.

Lemma ratio_gt_1 low high : 0 < low < high -> 1 < high / low.
Proof. intros [Hl Hh]. apply Rmult_lt_reg_r with low; auto. unfold Rdiv; rewrite Rmult_assoc, Rinv_l; lra. Qed.

Lemma plnorm_pos alpha low high : 0 < low < high -> 0 < plnorm alpha low high.
Proof.
  intros H. unfold plnorm. destruct (Req_EM_T alpha (-1)) as [E|E].
  - apply Rinv_0_lt_compat, ln_gt_0, ratio_gt_1; auto.
  - apply pl_denom_sign; auto.
Qed.

Lemma powerlaw_pdf_in x alpha low high fl : 0 < low < high -> low <= x <= high ->
  powerlaw_pdf (Fin x) (Fin alpha) (Fin low) (Fin high) fl = Fin (plnorm alpha low high * Rpower x alpha).
Proof.
  intros H Hx. unfold powerlaw_pdf, ngt. cbn [nlt neqb].
  rewrite !Rltb_f by lra. cbn [orb nwhere].
  pose proof (ratio_gt_1 low high H).
  rewrite nadd_fin, npow_fin by lra. unfold plnorm.
  destruct (Req_EM_T alpha (-1)) as [E|E].
  - rewrite Reqb_t by auto. cbn [nwhere].
    rewrite ndiv_fin by lra. rewrite nlog_fin by lra.
    rewrite ndiv_fin by (pose proof (ln_gt_0 (high / low)); lra).
    rewrite nmul_fin. f_equal. unfold Rdiv. ring.
  - rewrite Reqb_f by auto. cbn [nwhere].
    rewrite !npow_fin by lra. rewrite nsub_fin.
    destruct (pl_denom_sign alpha low high H E) as [_ Hd].
    rewrite ndiv_fin by auto. rewrite nmul_fin. f_equal. ring.
Qed.

Lemma powerlaw_pdf_out x alpha low high fl : nlt x low = true \/ nlt high x = true ->
  powerlaw_pdf x alpha low high fl = fl.
Proof.
  intros H. unfold powerlaw_pdf, ngt.
  destruct H as [H|H]; rewrite H; rewrite ?orb_true_r; reflexivity.
Qed.

Lemma plnorm_integral alpha low high : 0 < low < high ->
  is_RInt (fun x => plnorm alpha low high * Rpower x alpha) low high 1.
Proof.
  intros H. unfold plnorm. destruct (Req_EM_T alpha (-1)) as [E|E].
  - apply FTC_eq with (F := fun x => / ln (high / low) * ln x).
    + lra.
    + intros x Hx. subst alpha.
      eapply is_derive_ext_val.
      * apply is_derive_scal. apply is_derive_ln'. lra.
      * f_equal. change (-1) with (Ropp 1). rewrite Rpower_Ropp, Rpower_1 by lra. reflexivity.
    + intros x Hx. apply cont_scal. apply continuous_Rpower; lra.
    + unfold Rdiv. rewrite ln_mult, ln_Rinv by (try apply Rinv_0_lt_compat; lra).
      assert (0 < ln high - ln low) by (apply Rlt_Rminus, ln_increasing; lra).
      field. lra.
  - destruct (pl_denom_sign alpha low high H E) as [_ Hd].
    apply FTC_eq with (F := fun x => / (Rpower high (1 + alpha) - Rpower low (1 + alpha)) * Rpower x (1 + alpha)).
    + lra.
    + intros x Hx. eapply is_derive_ext_val.
      * apply is_derive_scal. apply is_derive_Rpower. lra.
      * replace (1 + alpha - 1) with alpha by ring. unfold Rdiv. cbn. unfold mult; cbn. ring.
    + intros x Hx. apply cont_scal. apply continuous_Rpower; lra.
    + field. auto.
Qed.

Lemma powerlaw_pdf_density alpha low high fl : 0 < low < high ->
  density_on (fun x => powerlaw_pdf (Fin x) (Fin alpha) (Fin low) (Fin high) fl) low high.
Proof.
  intros H. exists (fun x => plnorm alpha low high * Rpower x alpha). split.
  - intros x Hx. split; [apply powerlaw_pdf_in; auto|].
    apply Rmult_le_pos; [left; apply plnorm_pos; auto | left; apply Rpower_pos].
  - apply plnorm_integral; auto.
Qed.

(** ** error function *)
Lemma cont_gauss x : continuous (fun t => exp (- (t * t))) x.
Proof. apply ex_derive_cont. auto_derive; auto. Qed.

Lemma is_derive_erf x : is_derive erf x (2 / sqrt PI * exp (- (x * x))).
Proof.
  unfold erf. apply is_derive_scal.
  exact (is_derive_RInt_cont (fun t => exp (- (t * t))) 0 x cont_gauss).
Qed.

Lemma sqrtPI_pos : 0 < sqrt PI. Proof. apply sqrt_lt_R0, PI_RGT_0. Qed.
Lemma sqrt2_pos : 0 < sqrt 2. Proof. apply sqrt_lt_R0; lra. Qed.

Lemma erf_incr x y : x < y -> erf x < erf y.
Proof.
  intros H. apply derive_pos_incr with (fun x => 2 / sqrt PI * exp (- (x * x))); auto.
  - intros; apply is_derive_erf.
  - intros t _. pose proof sqrtPI_pos. pose proof (exp_pos (- (t * t))).
    apply Rmult_lt_0_compat; auto. apply Rdiv_lt_0_compat; lra.
Qed.

(** ** truncated normal *)
Definition tn_denom (mu sig l h : R) : R :=
  1/2 * (1 + erf ((h - mu) / (sig * sqrt 2))) - 1/2 * (1 + erf ((l - mu) / (sig * sqrt 2))).

Lemma tn_denom_pos mu sig l h : 0 < sig -> l < h -> 0 < tn_denom mu sig l h.
Proof.
  intros Hs Hlh. unfold tn_denom. pose proof sqrt2_pos.
  assert (erf ((l - mu) / (sig * sqrt 2)) < erf ((h - mu) / (sig * sqrt 2))); [|lra].
  apply erf_incr. unfold Rdiv. apply Rmult_lt_compat_r; [|lra].
  apply Rinv_0_lt_compat. nra.
Qed.

Lemma sqrt_2PI : sqrt (2 * PI) = sqrt 2 * sqrt PI.
Proof. apply sqrt_mult; [lra|]. left; apply PI_RGT_0. Qed.
Lemma sqrt2_sq : sqrt 2 * sqrt 2 = 2. Proof. apply sqrt_sqrt; lra. Qed.

Definition tn_f (mu sig l h x : R) : R :=
  exp (- (x - mu) ^ 2 / (2 * sig ^ 2)) * (1 / (sig * sqrt (2 * PI)) / tn_denom mu sig l h).

Lemma truncnorm_pdf_in x mu sig l h : 0 < sig -> l < h -> l <= x <= h ->
  truncnorm_pdf (Fin x) (Fin mu) (Fin sig) (Fin l) (Fin h) false = Fin (tn_f mu sig l h x).
Proof.
  intros Hs Hlh Hx. unfold truncnorm_pdf, ngt. cbn [nlt].
  rewrite !Rltb_f by lra. cbn [orb nwhere]. cbn zeta.
  pose proof (tn_denom_pos mu sig l h Hs Hlh) as Hd.
  pose proof sqrt2_pos. pose proof sqrtPI_pos. pose proof PI_RGT_0.
  assert (0 < sqrt (2 * PI)) by (apply sqrt_lt_R0; lra).
  rewrite !nsub_fin, !nmul_fin, !npowi_fin.
  rewrite !(ndiv_fin _ (sig * sqrt 2)) by nra.
  cbn [nerf]. rewrite !nadd_fin, !nmul_fin, nsub_fin, nneg_fin.
  rewrite ndiv_fin by nra. rewrite nsqrt_fin by lra. rewrite nmul_fin.
  rewrite (ndiv_fin 1) by nra.
  fold (tn_denom mu sig l h). rewrite ndiv_fin by lra. rewrite nexp_fin, nmul_fin. reflexivity.
Qed.

Lemma tn_f_pos mu sig l h x : 0 < sig -> l < h -> 0 < tn_f mu sig l h x.
Proof.
  intros Hs Hlh. unfold tn_f. pose proof (tn_denom_pos mu sig l h Hs Hlh).
  assert (0 < sqrt (2 * PI)) by (apply sqrt_lt_R0; pose proof PI_RGT_0; lra).
  apply Rmult_lt_0_compat; [apply exp_pos|].
  apply Rdiv_lt_0_compat; auto. apply Rdiv_lt_0_compat; nra.
Qed.

Lemma tn_derive mu sig l h x : 0 < sig -> l < h ->
  is_derive (fun x => 1/2 * erf ((x - mu) / (sig * sqrt 2)) / tn_denom mu sig l h) x (tn_f mu sig l h x).
Proof.
  intros Hs Hlh. pose proof (tn_denom_pos mu sig l h Hs Hlh).
  pose proof sqrt2_pos. pose proof sqrtPI_pos.
  eapply is_derive_ext_val.
  - unfold Rdiv at 1.
    apply (is_derive_ext (fun x => (1/2 * / tn_denom mu sig l h) * erf ((x - mu) / (sig * sqrt 2)))).
    + intros t. cbn. unfold Rdiv. rewrite !Rmult_1_l. change (@eq R_AbsRing) with (@eq R). ring.
    + apply is_derive_scal.
      apply (is_derive_comp erf (fun x => (x - mu) / (sig * sqrt 2))).
      * apply is_derive_erf.
      * auto_derive; [nra|]. reflexivity.
  - unfold tn_f. rewrite sqrt_2PI.
    replace (- ((x - mu) / (sig * sqrt 2) * ((x - mu) / (sig * sqrt 2))))
      with (- (x - mu) ^ 2 / (2 * sig ^ 2)).
    + cbn. unfold mult; cbn. field. lra.
    + rewrite <- sqrt2_sq at 1. field. lra.
Qed.

Lemma tn_integral mu sig l h : 0 < sig -> l < h -> is_RInt (tn_f mu sig l h) l h 1.
Proof.
  intros Hs Hlh. pose proof (tn_denom_pos mu sig l h Hs Hlh) as Hd.
  apply FTC_eq with (F := fun x => 1/2 * erf ((x - mu) / (sig * sqrt 2)) / tn_denom mu sig l h).
  - lra.
  - intros x _. apply tn_derive; auto.
  - intros x _. apply ex_derive_cont. unfold tn_f. auto_derive; auto.
  - transitivity (tn_denom mu sig l h / tn_denom mu sig l h); [|field; lra].
    unfold tn_denom at 3. field. lra.
Qed.

Lemma truncnorm_density mu sig l h : 0 < sig -> l < h ->
  density_on (fun x => truncnorm_pdf (Fin x) (Fin mu) (Fin sig) (Fin l) (Fin h) false) l h.
Proof.
  intros Hs Hlh. exists (tn_f mu sig l h). split; [|apply tn_integral; auto].
  intros x Hx. split; [apply truncnorm_pdf_in; auto | left; apply tn_f_pos; auto].
Qed.

Lemma truncnorm_out x mu sig l h b : nlt x l = true \/ nlt h x = true ->
  truncnorm_pdf x mu sig l h b = Fin 0.
Proof.
  intros H. unfold truncnorm_pdf, ngt.
  destruct H as [H|H]; rewrite H; rewrite ?orb_true_r; reflexivity.
Qed.

(** log-normal variant *)
Definition ln_f (mu sig l h x : R) : R :=
  exp (- (ln x - mu) ^ 2 / (2 * sig ^ 2)) * (1 / (x * sig * sqrt (2 * PI)) / tn_denom mu sig (ln l) (ln h)).

Lemma ln_f_tn mu sig l h x : 0 < x -> 0 < sig -> 0 < l < h ->
  ln_f mu sig l h x = / x * tn_f mu sig (ln l) (ln h) (ln x).
Proof.
  intros Hx Hs Hlh. unfold ln_f, tn_f.
  assert (ln l < ln h) as Hln by (apply ln_increasing; lra).
  pose proof (tn_denom_pos mu sig (ln l) (ln h) Hs Hln).
  assert (0 < sqrt (2 * PI)) by (apply sqrt_lt_R0; pose proof PI_RGT_0; lra).
  field. lra.
Qed.

Lemma lognorm_pdf_in x mu sig l h : 0 < sig -> 0 < l < h -> l <= x <= h ->
  truncnorm_pdf (Fin x) (Fin mu) (Fin sig) (Fin l) (Fin h) true = Fin (ln_f mu sig l h x).
Proof.
  intros Hs Hlh Hx. unfold truncnorm_pdf, ngt. cbn [nlt].
  rewrite !Rltb_f by lra. cbn [orb nwhere]. cbn zeta.
  assert (ln l < ln h) as Hln by (apply ln_increasing; lra).
  pose proof (tn_denom_pos mu sig (ln l) (ln h) Hs Hln) as Hd.
  pose proof sqrt2_pos. pose proof sqrtPI_pos. pose proof PI_RGT_0.
  assert (0 < sqrt (2 * PI)) by (apply sqrt_lt_R0; lra).
  rewrite !nlog_fin by lra.
  rewrite !nsub_fin, !nmul_fin, !npowi_fin.
  rewrite !(ndiv_fin _ (sig * sqrt 2)) by nra.
  cbn [nerf]. rewrite !nadd_fin, !nmul_fin, nsub_fin, nneg_fin.
  rewrite ndiv_fin by nra. rewrite nsqrt_fin by lra. rewrite nmul_fin.
  assert (0 < x * sig * sqrt (2 * PI)) by (apply Rmult_lt_0_compat; nra).
  rewrite (ndiv_fin 1) by lra.
  fold (tn_denom mu sig (ln l) (ln h)). rewrite ndiv_fin by lra. rewrite nexp_fin, nmul_fin. reflexivity.
Qed.

Lemma lognorm_density mu sig l h : 0 < sig -> 0 < l < h ->
  density_on (fun x => truncnorm_pdf (Fin x) (Fin mu) (Fin sig) (Fin l) (Fin h) true) l h.
Proof.
  intros Hs Hlh. exists (ln_f mu sig l h).
  assert (ln l < ln h) as Hln by (apply ln_increasing; lra).
  pose proof (tn_denom_pos mu sig (ln l) (ln h) Hs Hln) as Hd.
  assert (0 < sqrt (2 * PI)) by (apply sqrt_lt_R0; pose proof PI_RGT_0; lra).
  split.
  - intros x Hx. split; [apply lognorm_pdf_in; auto|].
    rewrite ln_f_tn by (auto; lra). apply Rmult_le_pos.
    + left; apply Rinv_0_lt_compat; lra.
    + left; apply tn_f_pos; auto.
  - apply FTC_eq with (F := fun x => 1/2 * erf ((ln x - mu) / (sig * sqrt 2)) / tn_denom mu sig (ln l) (ln h)).
    + lra.
    + intros x Hx. rewrite ln_f_tn by (auto; lra).
      apply (is_derive_comp (fun x => 1/2 * erf ((x - mu) / (sig * sqrt 2)) / tn_denom mu sig (ln l) (ln h)) ln).
      * apply tn_derive; auto.
      * apply is_derive_ln'; lra.
    + intros x Hx. apply ex_derive_cont. unfold ln_f. auto_derive.
      repeat split; try lra. assert (0 < x * sig * sqrt (2 * PI)) by (apply Rmult_lt_0_compat; nra). lra.
    + transitivity (tn_denom mu sig (ln l) (ln h) / tn_denom mu sig (ln l) (ln h)); [|field; lra].
      unfold tn_denom at 3. field. lra.
Qed.

(** ** logistic helpers *)
Lemma logistic_unit_fin x x0 sgn sc :
  logistic_unit (Fin x) (Fin x0) (Fin sgn) (Fin sc) = Fin (/ (1 + exp (sgn * sc * (x - x0)))).
Proof.
  unfold logistic_unit, logistic_function. cbn [nmul nneg nsub nadd nexp].
  rewrite ndiv_fin.
  - f_equal. unfold Rdiv. rewrite Rmult_1_l. f_equal. f_equal. f_equal. ring.
  - match goal with |- (1 + exp ?e) <> _ => pose proof (exp_pos e); lra end.
Qed.

Lemma log_logistic_unit_log x x0 sgn sc :
  log_logistic_unit (Fin x) (Fin x0) (Fin sgn) (Fin sc) = nlog (logistic_unit (Fin x) (Fin x0) (Fin sgn) (Fin sc)).
Proof.
  unfold log_logistic_unit. cbn [nsub nadd nneg nmul nlt].
  destruct (Rltb _ 0); cbn [nwhere]; [reflexivity|].
  rewrite !logistic_unit_fin.
  set (u := sgn * sc * (x - x0)).
  replace (- sgn * sc * (x - x0)) with (- u) by (unfold u; ring).
  pose proof (exp_pos u). pose proof (exp_pos (- u)).
  rewrite !nlog_fin by (apply Rinv_0_lt_compat; lra).
  change (Fin (- sgn * sc * (x + - x0)) + Fin (ln (/ (1 + exp (- u)))))%num
    with (Fin (- sgn * sc * (x + - x0) + ln (/ (1 + exp (- u))))).
  f_equal. replace (- sgn * sc * (x + - x0)) with (- u) by (unfold u; ring).
  rewrite !ln_Rinv by lra.
  replace (1 + exp u) with (exp u * (1 + exp (- u))) by (rewrite Rmult_plus_distr_l, <- exp_plus, Rplus_opp_r, exp_0; ring).
  rewrite ln_mult, ln_exp by lra. ring.
Qed.

(** ** smooth *)
Definition smooth_arg (dx x xmin : R) : R := dx / (x - xmin) + dx / (x - xmin - dx).
Lemma smooth_fin dx x xmin : 0 < dx -> x <> xmin -> x <> xmin + dx ->
  smooth (Fin dx) (Fin x) (Fin xmin) = Fin (/ (1 + exp (smooth_arg dx x xmin))).
Proof.
  intros Hd H1 H2. unfold smooth, nge. cbn [nlt nle nsub nadd nneg].
  rewrite ndiv_fin by lra. rewrite ndiv_fin by lra.
  rewrite nadd_fin, nexp_fin, nadd_fin.
  replace (Rltb x (xmin + dx) || Rleb xmin x)%bool with true.
  - cbn [nwhere]. match goal with |- context [exp ?e] => pose proof (exp_pos e) end.
    rewrite ndiv_fin by lra. f_equal. unfold Rdiv, smooth_arg.
    rewrite Rmult_1_l, Rplus_comm. reflexivity.
  - symmetry. apply orb_true_iff. destruct (Rlt_le_dec x (xmin + dx)).
    + left; apply Rltb_true; auto.
    + right; apply Rleb_true; lra.
Qed.

Lemma smooth_arg_decr dx xmin x y : 0 < dx -> xmin < x -> x < y -> y < xmin + dx ->
  smooth_arg dx y xmin < smooth_arg dx x xmin.
Proof.
  intros Hd Hx Hxy Hy. unfold smooth_arg.
  assert (dx / (y - xmin) < dx / (x - xmin)).
  { unfold Rdiv. apply Rmult_lt_compat_l; auto. apply Rinv_lt_contravar; nra. }
  assert (dx / (y - xmin - dx) < dx / (x - xmin - dx)).
  { unfold Rdiv. apply Rmult_lt_compat_l; auto. apply Rinv_lt_contravar; nra. }
  lra.
Qed.

Lemma smooth_in_window dx xmin x : 0 < dx -> xmin < x < xmin + dx ->
  exists v, smooth (Fin dx) (Fin x) (Fin xmin) = Fin v /\ 0 < v < 1.
Proof.
  intros Hd Hx. rewrite smooth_fin by lra. eexists; split; [reflexivity|].
  pose proof (exp_pos (smooth_arg dx x xmin)). split.
  - apply Rinv_0_lt_compat; lra.
  - rewrite <- Rinv_1 at 2. apply Rinv_lt_contravar; lra.
Qed.

Lemma smooth_monotone_window dx xmin x y : 0 < dx -> xmin < x -> x < y -> y < xmin + dx ->
  exists v w, smooth (Fin dx) (Fin x) (Fin xmin) = Fin v /\
              smooth (Fin dx) (Fin y) (Fin xmin) = Fin w /\ v < w.
Proof.
  intros Hd Hx Hxy Hy. rewrite !smooth_fin by lra. do 2 eexists; repeat split.
  pose proof (exp_pos (smooth_arg dx x xmin)). pose proof (exp_pos (smooth_arg dx y xmin)).
  pose proof (exp_increasing _ _ (smooth_arg_decr dx xmin x y Hd Hx Hxy Hy)).
  apply Rinv_lt_contravar; nra.
Qed.

Lemma smooth_below dx xmin x : 0 < dx -> x < xmin ->
  exists v, smooth (Fin dx) (Fin x) (Fin xmin) = Fin v /\ 1/2 < v < 1.
Proof.
  intros Hd Hx. rewrite smooth_fin by lra. eexists; split; [reflexivity|].
  assert (Ha : smooth_arg dx x xmin < 0).
  { unfold smooth_arg, Rdiv.
    assert (/ (x - xmin) < 0) by (apply Rinv_lt_0_compat; lra).
    assert (/ (x - xmin - dx) < 0) by (apply Rinv_lt_0_compat; lra). nra. }
  pose proof (exp_pos (smooth_arg dx x xmin)).
  assert (exp (smooth_arg dx x xmin) < 1) by (rewrite <- exp_0; apply exp_increasing; auto).
  split.
  - replace (1/2) with (/ 2) by lra. apply Rinv_lt_contravar; lra.
  - rewrite <- Rinv_1 at 2. apply Rinv_lt_contravar; lra.
Qed.

Lemma smooth_above dx xmin x : 0 < dx -> xmin + dx < x ->
  exists v, smooth (Fin dx) (Fin x) (Fin xmin) = Fin v /\ 0 < v < 1/2.
Proof.
  intros Hd Hx. rewrite smooth_fin by lra. eexists; split; [reflexivity|].
  assert (Ha : 0 < smooth_arg dx x xmin).
  { unfold smooth_arg, Rdiv.
    assert (0 < / (x - xmin)) by (apply Rinv_0_lt_compat; lra).
    assert (0 < / (x - xmin - dx)) by (apply Rinv_0_lt_compat; lra). nra. }
  assert (1 < exp (smooth_arg dx x xmin)) by (rewrite <- exp_0; apply exp_increasing; auto).
  split.
  - apply Rinv_0_lt_compat; lra.
  - replace (1/2) with (/ 2) by lra. apply Rinv_lt_contravar; lra.
Qed.

Lemma smooth_at_ends dx xmin : 0 < dx ->
  smooth (Fin dx) (Fin xmin) (Fin xmin) = Fin 0 /\
  smooth (Fin dx) (Fin (xmin + dx)) (Fin xmin) = Fin 0.
Proof.
  intros Hd. unfold smooth, nge. split; cbn [nlt nle nsub nadd nneg].
  - rewrite Rltb_t by lra. cbn [orb nwhere ndiv].
    rewrite Reqb_t by lra. rewrite Reqb_f by lra. rewrite sinf_pos by auto. reflexivity.
  - rewrite (Rltb_f (xmin + dx) (xmin + dx)) by lra. rewrite Rleb_t by lra. cbn [orb nwhere ndiv].
    rewrite Reqb_f by lra. rewrite Reqb_t by lra. rewrite sinf_pos by auto. reflexivity.
Qed.

(** ** soft truncated power law *)
Lemma powerlaw_logit_fin x alpha (low high : option R) lf hf : 0 < x ->
  powerlaw_logit_pdf (Fin x) (Fin alpha) (option_map Fin low) (option_map Fin high) (Fin lf) (Fin hf)
  = Fin (Rpower x alpha
         * match low with Some l => / (1 + exp (- lf * (x - l))) | None => 1 end
         * match high with Some h => / (1 + exp (hf * (x - h))) | None => 1 end).
Proof.
  intros Hx. unfold powerlaw_logit_pdf. rewrite npow_fin by auto.
  destruct low as [l|], high as [h|]; cbn [option_map]; rewrite ?logistic_unit_fin, ?nmul_fin; f_equal;
    replace (-1 * lf) with (- lf) by ring; rewrite ?(Rmult_1_l hf); ring.
Qed.

Lemma inv_logit_bound u : 0 < / (1 + exp u) < 1.
Proof.
  pose proof (exp_pos u). split; [apply Rinv_0_lt_compat; lra|].
  rewrite <- Rinv_1 at 2. apply Rinv_lt_contravar; lra.
Qed.

(** ** beta distribution *)
Lemma betadist_in betaln x a b s lnB fl : betaln (Fin a) (Fin b) = Fin lnB -> 0 < x < s ->
  betadist betaln (Fin x) (Fin a) (Fin b) (Fin s) fl
  = Fin (Rpower x (a - 1) * Rpower (s - x) (b - 1) / (Rpower s (a + b - 1) * exp lnB)).
Proof.
  intros HB Hx. unfold betadist, nge. cbn [nle]. rewrite !Rleb_t by lra. cbn [andb nwhere].
  rewrite HB. rewrite !nsub_fin, nadd_fin, nsub_fin. rewrite !nlog_fin by lra.
  rewrite !nmul_fin, nadd_fin, !nsub_fin, nexp_fin. f_equal.
  unfold Rpower, Rdiv. rewrite Rinv_mult.
  rewrite <- !exp_Ropp, <- !exp_plus. f_equal. ring.
Qed.

Lemma betadist_left betaln a b s lnB fl : betaln (Fin a) (Fin b) = Fin lnB -> 0 < s -> 1 < a ->
  betadist betaln (Fin 0) (Fin a) (Fin b) (Fin s) fl = Fin 0.
Proof.
  intros HB Hs Ha. unfold betadist, nge. cbn [nle]. rewrite !Rleb_t by lra. cbn [andb nwhere].
  rewrite HB, nlog_zero, !nsub_fin, !nlog_fin by lra. cbn [nmul].
  rewrite sinf_pos by lra. reflexivity.
Qed.
Lemma betadist_right betaln a b s lnB fl : betaln (Fin a) (Fin b) = Fin lnB -> 0 < s -> 1 < b ->
  betadist betaln (Fin s) (Fin a) (Fin b) (Fin s) fl = Fin 0.
Proof.
  intros HB Hs Ha. unfold betadist, nge. cbn [nle]. rewrite !Rleb_t by lra. cbn [andb nwhere].
  rewrite HB, !nsub_fin. replace (s - s) with 0 by ring. rewrite nlog_zero, !nlog_fin by lra. cbn [nmul].
  rewrite sinf_pos by lra. reflexivity.
Qed.
Lemma betadist_nan_left betaln b s lnB fl : betaln (Fin 1) (Fin b) = Fin lnB -> 0 < s ->
  betadist betaln (Fin 0) (Fin 1) (Fin b) (Fin s) fl = NaN.
Proof.
  intros HB Hs. unfold betadist, nge. cbn [nle]. rewrite !Rleb_t by lra. cbn [andb nwhere].
  rewrite HB, nlog_zero, !nsub_fin, !nlog_fin by lra. replace (1 - 1) with 0 by ring. cbn [nmul].
  rewrite sinf_0. reflexivity.
Qed.
Lemma betadist_inf_left betaln a b s lnB fl : betaln (Fin a) (Fin b) = Fin lnB -> 0 < s -> a < 1 ->
  betadist betaln (Fin 0) (Fin a) (Fin b) (Fin s) fl = PInf.
Proof.
  intros HB Hs Ha. unfold betadist, nge. cbn [nle]. rewrite !Rleb_t by lra. cbn [andb nwhere].
  rewrite HB, nlog_zero, !nsub_fin, !nlog_fin by lra. cbn [nmul].
  rewrite sinf_neg by lra. reflexivity.
Qed.
Lemma betadist_out betaln x a b s fl : nlt x (Fin 0) = true \/ nlt s x = true ->
  betadist betaln x a b s fl = fl.
Proof.
  intros H. unfold betadist, nge.
  assert (E : (nle x s && nle (Fin 0) x)%bool = false).
  { apply andb_false_iff. destruct H as [H|H]; [right|left];
    destruct x, s; cbn in *; try discriminate; auto.
    all: apply Rltb_true in H; apply Rleb_f; auto. }
  rewrite E. reflexivity.
Qed.

Lemma beta_scaled_integral a b s B : 0 < s -> 0 < B ->
  is_RInt (fun t => Rpower t (a - 1) * Rpower (1 - t) (b - 1)) 0 1 B ->
  is_RInt (fun x => Rpower x (a - 1) * Rpower (s - x) (b - 1) / (Rpower s (a + b - 1) * B)) 0 s 1.
Proof.
  intros Hs HB H.
  pose proof (is_RInt_comp_lin (fun t => Rpower t (a - 1) * Rpower (1 - t) (b - 1)) (/ s) 0 0 s B) as K.
  replace (/ s * 0 + 0) with 0 in K by ring. replace (/ s * s + 0) with 1 in K by (field; lra).
  specialize (K H).
  apply (is_RInt_scalR _ 0 s (/ B)) in K. replace (/ B * B) with 1 in K by (field; lra).
  eapply is_RInt_ext_open; [lra| |exact K].
  intros x Hx. cbn. unfold scal; cbn. unfold mult; cbn.
  replace (/ s * x + 0) with (x * / s) by ring.
  replace (1 - x * / s) with ((s - x) * / s) by (field; lra).
  unfold Rdiv. rewrite Rinv_mult.
  rewrite <- !(Rpower_mult_distr) by (try apply Rinv_0_lt_compat; lra).
  replace (Rpower s (a + b - 1)) with (Rpower s (a - 1) * (Rpower s (b - 1) * s)).
  - assert (E : forall c, Rpower (/ s) c = / Rpower s c).
    { intros c. rewrite <- Rpower_Ropp. unfold Rpower. rewrite ln_Rinv by lra. f_equal. ring. }
    rewrite !E. pose proof (Rpower_pos s (a - 1)). pose proof (Rpower_pos s (b - 1)).
    field. lra.
  - rewrite <- (Rpower_1 s) at 3 by lra. rewrite <- !Rpower_plus. f_equal. ring.
Qed.

(** ** shapes and packaged statements *)
Lemma powerlaw_shape alpha low high fl : 0 < low < high ->
  proportional_on (fun x => powerlaw_pdf (Fin x) (Fin alpha) (Fin low) (Fin high) fl) (fun x => Rpower x alpha) low high.
Proof.
  intros H. exists (plnorm alpha low high). split; [apply plnorm_pos; auto|].
  intros x Hx. apply powerlaw_pdf_in; auto.
Qed.

Lemma powerlaw_floor_inside x alpha low high fl fl' :
  nlt x low = false -> nlt high x = false ->
  powerlaw_pdf x alpha low high fl = powerlaw_pdf x alpha low high fl'.
Proof. intros H1 H2. unfold powerlaw_pdf, ngt. rewrite H1, H2. reflexivity. Qed.

Lemma truncnorm_shape mu sig l h : 0 < sig -> l < h ->
  proportional_on (fun x => truncnorm_pdf (Fin x) (Fin mu) (Fin sig) (Fin l) (Fin h) false)
    (fun x => exp (- (x - mu) ^ 2 / (2 * sig ^ 2))) l h.
Proof.
  intros Hs Hlh. pose proof (tn_denom_pos mu sig l h Hs Hlh).
  assert (0 < sqrt (2 * PI)) by (apply sqrt_lt_R0; pose proof PI_RGT_0; lra).
  exists (1 / (sig * sqrt (2 * PI)) / tn_denom mu sig l h). split.
  - apply Rdiv_lt_0_compat; auto. apply Rdiv_lt_0_compat; nra.
  - intros x Hx. rewrite truncnorm_pdf_in by auto. unfold tn_f. f_equal. ring.
Qed.

Lemma lognorm_shape mu sig l h : 0 < sig -> 0 < l < h ->
  proportional_on (fun x => truncnorm_pdf (Fin x) (Fin mu) (Fin sig) (Fin l) (Fin h) true)
    (fun x => exp (- (ln x - mu) ^ 2 / (2 * sig ^ 2)) / x) l h.
Proof.
  intros Hs Hlh.
  assert (ln l < ln h) as Hln by (apply ln_increasing; lra).
  pose proof (tn_denom_pos mu sig (ln l) (ln h) Hs Hln) as Hd.
  assert (0 < sqrt (2 * PI)) by (apply sqrt_lt_R0; pose proof PI_RGT_0; lra).
  exists (1 / (sig * sqrt (2 * PI)) / tn_denom mu sig (ln l) (ln h)). split.
  - apply Rdiv_lt_0_compat; auto. apply Rdiv_lt_0_compat; nra.
  - intros x Hx. rewrite lognorm_pdf_in by auto. unfold ln_f. f_equal. field. lra.
Qed.

Lemma truncnorm_zero_outside mu sig l h b :
  zero_outside (fun x => truncnorm_pdf (Fin x) mu sig (Fin l) (Fin h) b) l h.
Proof.
  intros x H. apply truncnorm_out. destruct H; [left|right]; cbn; apply Rltb_true; auto.
Qed.

Lemma logistic_unit_props x x0 sgn sc : 0 < sc -> sgn = 1 \/ sgn = -1 ->
  exists p, logistic_unit (Fin x) (Fin x0) (Fin sgn) (Fin sc) = Fin p /\ 0 < p < 1 /\
            p = (if Rltb 0 sgn then logistic_down sc x0 x else logistic_up sc x0 x) /\
            logistic_unit (Fin x) (Fin x0) (Fin (- sgn)) (Fin sc) = Fin (1 - p) /\
            log_logistic_unit (Fin x) (Fin x0) (Fin sgn) (Fin sc) = Fin (ln p).
Proof.
  intros Hs Hg. rewrite logistic_unit_fin. eexists; split; [reflexivity|].
  pose proof (inv_logit_bound (sgn * sc * (x - x0))) as Hb. split; [auto|]. split; [|split].
  - destruct Hg as [-> | ->]; [rewrite Rltb_t by lra | rewrite Rltb_f by lra];
      unfold logistic_down, logistic_up; f_equal; f_equal; f_equal; ring.
  - rewrite logistic_unit_fin. f_equal.
    replace (- sgn * sc * (x - x0)) with (- (sgn * sc * (x - x0))) by ring.
    set (u := sgn * sc * (x - x0)). rewrite exp_Ropp. pose proof (exp_pos u). field. lra.
  - rewrite log_logistic_unit_log, logistic_unit_fin, nlog_fin; [reflexivity | lra].
Qed.

Lemma logistic_mid x0 sgn sc : logistic_unit (Fin x0) (Fin x0) (Fin sgn) (Fin sc) = Fin (1/2).
Proof.
  rewrite logistic_unit_fin. replace (sgn * sc * (x0 - x0)) with 0 by ring. rewrite exp_0. f_equal. lra.
Qed.

Lemma logistic_monotone x y x0 sc : 0 < sc -> x < y ->
  exists p q p' q',
    logistic_unit (Fin x) (Fin x0) (Fin 1) (Fin sc) = Fin p /\
    logistic_unit (Fin y) (Fin x0) (Fin 1) (Fin sc) = Fin q /\ q < p /\
    logistic_unit (Fin x) (Fin x0) (Fin (-1)) (Fin sc) = Fin p' /\
    logistic_unit (Fin y) (Fin x0) (Fin (-1)) (Fin sc) = Fin q' /\ p' < q'.
Proof.
  intros Hs Hxy. rewrite !logistic_unit_fin. do 4 eexists.
  assert (K : forall u v, u < v -> / (1 + exp v) < / (1 + exp u)).
  { intros u v Huv. pose proof (exp_pos u). pose proof (exp_pos v).
    pose proof (exp_increasing u v Huv). apply Rinv_lt_contravar; nra. }
  repeat split; apply K; nra.
Qed.

Lemma powerlaw_logit_bound x alpha (low high : option R) lf hf : 0 < x ->
  exists p, powerlaw_logit_pdf (Fin x) (Fin alpha) (option_map Fin low) (option_map Fin high) (Fin lf) (Fin hf) = Fin p
   /\ p = Rpower x alpha
         * match low with Some l => logistic_up lf l x | None => 1 end
         * match high with Some h => logistic_down hf h x | None => 1 end
   /\ 0 < p <= Rpower x alpha.
Proof.
  intros Hx. rewrite powerlaw_logit_fin by auto. eexists; split; [reflexivity|].
  unfold logistic_up, logistic_down. split; [reflexivity|].
  pose proof (Rpower_pos x alpha).
  assert (Hl : 0 < match low with Some l => / (1 + exp (- lf * (x - l))) | None => 1 end <= 1).
  { destruct low; [|lra]. pose proof (inv_logit_bound (- lf * (x - r))). lra. }
  assert (Hh : 0 < match high with Some h => / (1 + exp (hf * (x - h))) | None => 1 end <= 1).
  { destruct high; [|lra]. pose proof (inv_logit_bound (hf * (x - r))). lra. }
  revert Hl Hh. generalize (match low with Some l => / (1 + exp (- lf * (x - l))) | None => 1 end).
  generalize (match high with Some h => / (1 + exp (hf * (x - h))) | None => 1 end).
  intros u w Hw Hu. split.
  - apply Rmult_lt_0_compat; [apply Rmult_lt_0_compat|]; lra.
  - assert (Rpower x alpha * w <= Rpower x alpha) by nra.
    assert (0 < Rpower x alpha * w) by (apply Rmult_lt_0_compat; lra). nra.
Qed.
