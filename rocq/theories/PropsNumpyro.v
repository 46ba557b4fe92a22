(** The numpyro distribution objects: C47 - C54, C103. *)
From Verif Require Import PNumpyroDist PNumpyroSmooth PNumpyroValue.
From Verif Require Import Spec SpecPieces.
Open Scope R_scope.

(** C47: the entries are prefix integrals of the array shifted by one place, with its last value repeated *)
Theorem C47_cumtrapz_shifted_partial : forall y x, (2 <= length y)%nat -> length y = length x ->
  exists c, cumtrapz (map Fin y) (map Fin x) = Ok (map Fin c) /\ length c = length y /\
  forall i, (i < length y)%nat -> nth i c 0 = prefix_integral x (tl y ++ (last y 0 :: nil)) i.
Proof. exact cumtrapz_fin. Qed.
Print Assumptions C47_cumtrapz_shifted_partial.
Theorem C47_cumtrapz_constant_partial : forall k x, (2 <= length x)%nat ->
  exists c, cumtrapz (map Fin (repeat k (length x))) (map Fin x) = Ok (map Fin c) /\ length c = length x /\
  forall i, (i < length x)%nat -> nth i c 0 = prefix_integral x (repeat k (length x)) i.
Proof. exact cumtrapz_constant. Qed.
Print Assumptions C47_cumtrapz_constant_partial.
Theorem C47_cumtrapz_refuted : forall y x, (3 <= length y)%nat -> length y = length x -> increasing x -> nth 0 y 0 <> nth 2 y 0 ->
  exists c, cumtrapz (map Fin y) (map Fin x) = Ok (map Fin c) /\ nth 1 c 0 <> prefix_integral x y 1.
Proof. exact cumtrapz_wrong. Qed.
Print Assumptions C47_cumtrapz_refuted.
Theorem C47_one_point_refuted : forall y x, length y = 1%nat -> cumtrapz (map Fin y) (map Fin x) = Err TypeError.
Proof. exact cumtrapz_single. Qed.
Print Assumptions C47_one_point_refuted.
Example C47_case : increasing [0; 1; 3] /\ nth 0 [5; 6; 7] 0 <> nth 2 [5; 6; 7] 0 /\ prefix_integral [0; 1; 3] [5; 6; 7] 1 = 11 / 2.
Proof. cbn. repeat split; lra. Qed.

(** C48 *)
Theorem C48_sine_default_partial : density_on (fun x => nexp (sine_log_prob (Fin x))) 0 PI /\
  integral_from (fun x => nexp (sine_log_prob (Fin x))) (fun x => sine_cdf (Fin 0) (Fin PI) (Fin x)) 0 PI.
Proof. exact sine_default. Qed.
Print Assumptions C48_sine_default_partial.
Theorem C48_sine_quantiles_partial : forall a b, 0 <= a -> a < b -> b <= PI ->
  integral_from (fun x => Fin (sin x / (cos a - cos b))) (fun x => sine_cdf (Fin a) (Fin b) (Fin x)) a b /\
  sine_cdf (Fin a) (Fin b) (Fin b) = Fin 1 /\
  (forall x, x < a -> sine_cdf (Fin a) (Fin b) (Fin x) = Fin 0) /\ (forall x, b < x -> sine_cdf (Fin a) (Fin b) (Fin x) = Fin 1) /\
  (forall q, 0 <= q <= 1 -> exists v, sine_icdf (Fin a) (Fin b) (Fin q) = Fin v /\ sine_sample (Fin a) (Fin b) (Fin q) = Fin v /\ a <= v <= b /\ sine_cdf (Fin a) (Fin b) (Fin v) = Fin q) /\
  (forall v, a <= v <= b -> exists q, 0 <= q <= 1 /\ sine_cdf (Fin a) (Fin b) (Fin v) = Fin q /\ sine_icdf (Fin a) (Fin b) (Fin q) = Fin v).
Proof. exact sine_all. Qed.
Print Assumptions C48_sine_quantiles_partial.
Theorem C48_sine_other_limits_refuted : forall a b, 0 <= a -> a < b -> b <= PI -> a <> 0 \/ b <> PI ->
  exists f I, (forall x, a <= x <= b -> nexp (sine_log_prob (Fin x)) = Fin (f x)) /\ is_RInt f a b I /\ I < 1.
Proof. exact sine_not_normalised. Qed.
Print Assumptions C48_sine_other_limits_refuted.
Example C48_case : 0 <= 1 /\ 1 < 2 /\ 2 <= PI /\ (1 <> 0 \/ 2 <> PI).
Proof. pose proof PI2_1. repeat split; lra. Qed.

(** C49 *)
Theorem C49_cosine_default_partial : density_on (fun x => nexp (cosine_log_prob (Fin x))) (- (PI / 2)) (PI / 2) /\
  integral_from (fun x => nexp (cosine_log_prob (Fin x))) (fun x => cosine_cdf (Fin (- (PI / 2))) (Fin (PI / 2)) (Fin x)) (- (PI / 2)) (PI / 2).
Proof. exact cosine_default. Qed.
Print Assumptions C49_cosine_default_partial.
Theorem C49_cosine_quantiles_partial : forall a b, - (PI / 2) <= a -> a < b -> b <= PI / 2 ->
  integral_from (fun x => Fin (cos x / (sin b - sin a))) (fun x => cosine_cdf (Fin a) (Fin b) (Fin x)) a b /\
  cosine_cdf (Fin a) (Fin b) (Fin b) = Fin 1 /\
  (forall x, x < a -> cosine_cdf (Fin a) (Fin b) (Fin x) = Fin 0) /\ (forall x, b < x -> cosine_cdf (Fin a) (Fin b) (Fin x) = Fin 1) /\
  (forall q, 0 <= q <= 1 -> exists v, cosine_icdf (Fin a) (Fin b) (Fin q) = Fin v /\ cosine_sample (Fin a) (Fin b) (Fin q) = Fin v /\ a <= v <= b /\ cosine_cdf (Fin a) (Fin b) (Fin v) = Fin q) /\
  (forall v, a <= v <= b -> exists q, 0 <= q <= 1 /\ cosine_cdf (Fin a) (Fin b) (Fin v) = Fin q /\ cosine_icdf (Fin a) (Fin b) (Fin q) = Fin v).
Proof. exact cosine_all. Qed.
Print Assumptions C49_cosine_quantiles_partial.
Theorem C49_cosine_other_limits_refuted : forall a b, - (PI / 2) <= a -> a < b -> b <= PI / 2 -> a <> - (PI / 2) \/ b <> PI / 2 ->
  exists f I, (forall x, a <= x <= b -> nexp (cosine_log_prob (Fin x)) = Fin (f x)) /\ is_RInt f a b I /\ I < 1.
Proof. exact cosine_not_normalised. Qed.
Print Assumptions C49_cosine_other_limits_refuted.
Example C49_case : - (PI / 2) <= 0 /\ 0 < 1 /\ 1 <= PI / 2 /\ (0 <> - (PI / 2) \/ 1 <> PI / 2).
Proof. pose proof PI2_1. repeat split; try lra. Qed.

(** C50 *)
Theorem C50_powerlaw_density_partial : forall alpha m M, 0 < m < M -> alpha <> -1 ->
  density_on (fun x => nexp (pl_log_prob (Fin alpha) (Fin m) (Fin M) (Fin x))) m M /\
  integral_from (fun x => nexp (pl_log_prob (Fin alpha) (Fin m) (Fin M) (Fin x))) (fun x => pl_cdf (Fin alpha) (Fin m) (Fin M) (Fin x)) m M /\
  proportional_on (fun x => nexp (pl_log_prob (Fin alpha) (Fin m) (Fin M) (Fin x))) (fun x => Rpower x alpha) m M.
Proof. exact pl_density. Qed.
Print Assumptions C50_powerlaw_density_partial.
Theorem C50_powerlaw_quantiles : forall alpha m M, 0 < m < M ->
  (exists p, density_on p m M /\ proportional_on p (fun x => Rpower x alpha) m M /\ integral_from p (fun x => pl_cdf (Fin alpha) (Fin m) (Fin M) (Fin x)) m M) /\
  pl_cdf (Fin alpha) (Fin m) (Fin M) (Fin M) = Fin 1 /\
  (forall x, 0 < x < m -> pl_cdf (Fin alpha) (Fin m) (Fin M) (Fin x) = Fin 0) /\ (forall x, M < x -> pl_cdf (Fin alpha) (Fin m) (Fin M) (Fin x) = Fin 1) /\
  (forall q, 0 <= q <= 1 -> exists v, pl_icdf (Fin alpha) (Fin m) (Fin M) (Fin q) = Fin v /\ pl_sample (Fin alpha) (Fin m) (Fin M) (Fin q) = Fin v /\ m <= v <= M /\ pl_cdf (Fin alpha) (Fin m) (Fin M) (Fin v) = Fin q) /\
  (forall v, m <= v <= M -> exists q, 0 <= q <= 1 /\ pl_cdf (Fin alpha) (Fin m) (Fin M) (Fin v) = Fin q /\ pl_icdf (Fin alpha) (Fin m) (Fin M) (Fin q) = Fin v).
Proof. exact pl_quantiles'. Qed.
Print Assumptions C50_powerlaw_quantiles.
Theorem C50_powerlaw_outside : forall alpha m M v, v < m \/ M < v -> pl_log_prob (Fin alpha) (Fin m) (Fin M) (Fin v) = Fin (- FMAX).
Proof. exact pl_log_prob_out. Qed.
Print Assumptions C50_powerlaw_outside.
Theorem C50_index_minus_one_refuted : forall m M, 0 < m < M ->
  exists f I, (forall v, m <= v <= M -> nexp (pl_log_prob (Fin (-1)) (Fin m) (Fin M) (Fin v)) = Fin (f v)) /\ is_RInt f m M I /\ I < 1.
Proof. exact pl_neg1_integral. Qed.
Print Assumptions C50_index_minus_one_refuted.
Theorem C50_cdf_of_negative_value_refuted : forall m M, 0 < m < M -> pl_cdf (Fin 1) (Fin m) (Fin M) (Fin (- M)) = Fin 1.
Proof. exact pl_cdf_negative. Qed.
Print Assumptions C50_cdf_of_negative_value_refuted.
Example C50_case : 0 < 5 < 100 /\ -2.3 <> -1. Proof. repeat split; lra. Qed.

(** C51 *)
Theorem C51_redshift_unit_partial : forall lamb maximum zs dV, increasing zs -> (forall z, In z zs -> -1 < z) -> (2 <= length zs)%nat -> length dV = length zs ->
  (forall v, In v dV -> 0 <= v) -> (exists v, In v dV /\ 0 < v) -> last zs 0 <= maximum ->
  exists d ps, make_plz (Fin lamb) (Fin maximum) (map Fin zs) (map Fin dV) = Ok d /\ map (fun z => nexp (plz_log_prob d (Fin z))) zs = map Fin ps /\
    (forall p, In p ps -> 0 <= p) /\ trapezoid zs ps = 1.
Proof. exact redshift_unit. Qed.
Print Assumptions C51_redshift_unit_partial.
Theorem C51_redshift_cdf_partial : forall lamb maximum h zs dV, uniform_grid h zs -> (forall z, In z zs -> -1 < z) -> (2 <= length zs)%nat -> length dV = length zs ->
  (forall v, In v dV -> 0 <= v) -> (exists v, In v dV /\ 0 < v) ->
  exists d F G, make_plz (Fin lamb) (Fin maximum) (map Fin zs) (map Fin dV) = Ok d /\ (forall z, plz_cdf d (Fin z) = Fin (F z)) /\
    (forall z w, z <= w -> F z <= F w) /\ (forall z, z <= hd 0 zs -> F z = 0) /\ (forall z, last zs 0 <= z -> F z = 1) /\
    (forall u, plz_sample d (Fin u) = Fin (G u) /\ hd 0 zs <= G u <= last zs 0).
Proof. exact redshift_cdf. Qed.
Print Assumptions C51_redshift_cdf_partial.
Theorem C51_cdf_not_integral_refuted : forall lamb maximum h zs dV, uniform_grid h zs -> (forall z, In z zs -> -1 < z) -> (3 <= length zs)%nat -> length dV = length zs ->
  (forall v, In v dV -> 0 <= v) -> (exists v, In v dV /\ 0 < v) -> last zs 0 <= maximum ->
  nth 0 dV 0 * Rpower (1 + nth 0 zs 0) (lamb - 1) <> nth 2 dV 0 * Rpower (1 + nth 2 zs 0) (lamb - 1) ->
  exists d ps F, make_plz (Fin lamb) (Fin maximum) (map Fin zs) (map Fin dV) = Ok d /\ map (fun z => nexp (plz_log_prob d (Fin z))) zs = map Fin ps /\
    plz_cdf d (Fin (nth 1 zs 0)) = Fin F /\ F <> prefix_integral zs ps 1.
Proof. exact redshift_cdf_wrong. Qed.
Print Assumptions C51_cdf_not_integral_refuted.
Theorem C51_cdf_above_one_refuted : exists d, make_plz (Fin 1) (Fin 11) (map Fin [0; 10; 11]) (map Fin [0; 0; 2]) = Ok d /\ plz_cdf d (Fin 10) = Fin 10.
Proof. exact redshift_cdf_above_one. Qed.
Print Assumptions C51_cdf_above_one_refuted.
Theorem C51_maximum_below_grid_refuted : exists d p0 p1, make_plz (Fin 1) (Fin 1) (map Fin [0; 2]) (map Fin [1; 1]) = Ok d /\
  nexp (plz_log_prob d (Fin 0)) = Fin p0 /\ nexp (plz_log_prob d (Fin 2)) = Fin p1 /\ trapezoid [0; 2] [p0; p1] < 1.
Proof. exact redshift_truncated. Qed.
Print Assumptions C51_maximum_below_grid_refuted.
Example C51_case : uniform_grid 1 [0; 1; 2] /\ (forall z, In z [0; 1; 2] -> -1 < z) /\ (forall v, In v [0; 1; 4] -> 0 <= v) /\
  nth 0 [0; 1; 4] 0 * Rpower (1 + nth 0 [0; 1; 2] 0) (1 - 1) <> nth 2 [0; 1; 4] 0 * Rpower (1 + nth 2 [0; 1; 2] 0) (1 - 1).
Proof.
  split; [split; [lra|intros i Hi; destruct i as [|[|i]]; cbn in *; try lra; lia]|]. split; [intros z [<-|[<-|[<-|[]]]]; lra|]. split; [intros z [<-|[<-|[<-|[]]]]; lra|].
  cbn [nth]. replace (1 - 1) with 0 by ring. rewrite !Rpower_O by lra. lra.
Qed.

(** C52: wherever log_prob is a number the pieces are power laws that join; it is never normalised *)
Theorem C52_smoothed_continuous_partial : forall alpha m M amax amin low high, 0 < low < m -> m < M < high ->
  let lp v := pspl_log_prob (make_pspl (Fin alpha) (Fin m) (Fin M) (Fin amax) (Fin amin) (Fin low) (Fin high)) (Fin v) in
  (exists v, low <= v <= high /\ lp v <> NaN) ->
  exists f, (forall v, 0 < v -> nexp (lp v) = Fin (f v)) /\ continuous f m /\ continuous f M /\
    (exists k1 k2 k3, 0 < k1 /\ 0 < k2 /\ 0 < k3 /\ (forall v, 0 < v < m -> f v = k1 * Rpower v amin) /\ (forall v, m <= v <= M -> f v = k2 * Rpower v alpha) /\ (forall v, M < v -> f v = k3 * Rpower v (- amax))).
Proof. exact smooth_continuous. Qed.
Print Assumptions C52_smoothed_continuous_partial.
Theorem C52_smoothed_normalised_refuted : forall alpha m M amax amin low high, 0 < low < m -> m < M < high ->
  let lp v := pspl_log_prob (make_pspl (Fin alpha) (Fin m) (Fin M) (Fin amax) (Fin amin) (Fin low) (Fin high)) (Fin v) in
  (forall v, low <= v <= high -> lp v = NaN) \/
  (exists f I, (forall v, low <= v <= high -> nexp (lp v) = Fin (f v)) /\ is_RInt f low high I /\ 1 < I).
Proof. exact smooth_not_normalised. Qed.
Print Assumptions C52_smoothed_normalised_refuted.
Theorem C52_sample_below_support_refuted : forall alpha m M amax amin low high u, 1 < low ->
  exists x, pspl_sample (make_pspl (Fin alpha) (Fin m) (Fin M) (Fin amax) (Fin amin) (Fin low) (Fin high)) u = Fin x /\ x < low.
Proof. exact smoothed_sample. Qed.
Print Assumptions C52_sample_below_support_refuted.
Example C52_case : exists v, 1 <= v <= 9 /\ pspl_log_prob (make_pspl (Fin 0) (Fin 2) (Fin 8) (Fin 2) (Fin 0) (Fin 1) (Fin 9)) (Fin v) <> NaN.
Proof.
  exists 4. split; [lra|]. assert (P : forall x y, 0 < x -> npow (Fin x) (Fin y) = Fin (Rpower x y)) by (intros; apply npow_fin; auto).
  assert (R1 : forall x, 0 < x -> Rpower x 1 = x) by (intros; apply Rpower_1; auto). assert (R0 : forall x, 0 < x -> Rpower x 0 = 1) by (intros; apply Rpower_O; auto).
  unfold make_pspl. rewrite ?nneg_fin, ?nadd_fin, ?nsub_fin. rewrite !P by lra. replace (0 + 1) with 1 by ring. replace (0 - 0) with 0 by ring. rewrite !R1, !R0 by lra.
  rewrite ?nneg_fin, ?nadd_fin, ?nsub_fin. rewrite !ndiv_fin by lra. rewrite ?nneg_fin, ?nmul_fin, ?nadd_fin, ?nsub_fin.
  assert (E8 : Rpower 8 (- (2) + 1) = / 8) by (replace (- (2) + 1) with (- (1)) by ring; rewrite Rpower_Ropp, R1 by lra; reflexivity).
  assert (E9 : Rpower 9 (- (2) + 1) = / 9) by (replace (- (2) + 1) with (- (1)) by ring; rewrite Rpower_Ropp, R1 by lra; reflexivity).
  assert (E64 : Rpower 8 (0 - - (2)) = 64) by (replace (0 - - (2)) with (1 + 1) by ring; rewrite Rpower_plus, R1 by lra; ring).
  rewrite E8, E9, E64. match goal with |- context [ndiv (Fin ?a) (Fin ?b)] => replace b with (-53 / 9) by (field; lra); replace a with (-1) by (field; lra) end. rewrite ndiv_fin by lra. rewrite !nmul_fin. unfold pspl_log_prob. cbn [s_min s_max s_k1 s_k2 s_k3 s_amin s_amax s_alpha].
  unfold ngt, nge. cbn [nlt nle]. rewrite (Rltb_f 4 2), (Rltb_f 8 4), (Rleb_t 2 4), (Rleb_t 4 8) by lra. cbn [nwhere]. rewrite !nlog_fin by lra. rewrite nmul_fin, !nadd_fin. discriminate.
Qed.

(** C53 *)
Theorem C53_spline_unit_partial : forall cs grid rows, increasing grid -> (2 <= length grid)%nat -> length cs = length rows -> (forall r, In r rows -> length r = length grid) ->
  exists d ps, make_bsd (map Fin cs) (map Fin grid) (map (map Fin) rows) = Ok d /\ map (fun z => nexp (bsd_log_prob d (Fin z))) grid = map Fin ps /\
    (exists k, 0 < k /\ forall i, (i < length grid)%nat -> nth i ps 0 = exp (Rlsum (map2 Rmult cs (map (fun r => nth i r 0) rows))) / k) /\ trapezoid grid ps = 1.
Proof. exact bsd_unit. Qed.
Print Assumptions C53_spline_unit_partial.
Theorem C53_spline_cdf_partial : forall h cs grid rows, uniform_grid h grid -> (2 <= length grid)%nat -> length cs = length rows -> (forall r, In r rows -> length r = length grid) ->
  exists d F G, make_bsd (map Fin cs) (map Fin grid) (map (map Fin) rows) = Ok d /\ (forall z, bsd_cdf d (Fin z) = Fin (F z)) /\
    (forall z w, z <= w -> F z <= F w) /\ (forall z, z <= hd 0 grid -> F z = 0) /\ (forall z, last grid 0 <= z -> F z = 1) /\
    (forall u, bsd_sample d (Fin u) = Fin (G u) /\ hd 0 grid <= G u <= last grid 0).
Proof. exact bsd_cdf_props. Qed.
Print Assumptions C53_spline_cdf_partial.
Theorem C53_cdf_not_integral_refuted : forall h cs grid rows, uniform_grid h grid -> (3 <= length grid)%nat -> length cs = length rows -> (forall r, In r rows -> length r = length grid) ->
  Rlsum (map2 Rmult cs (map (fun r => nth 0 r 0) rows)) <> Rlsum (map2 Rmult cs (map (fun r => nth 2 r 0) rows)) ->
  exists d ps F, make_bsd (map Fin cs) (map Fin grid) (map (map Fin) rows) = Ok d /\ map (fun z => nexp (bsd_log_prob d (Fin z))) grid = map Fin ps /\
    bsd_cdf d (Fin (nth 1 grid 0)) = Fin F /\ F <> prefix_integral grid ps 1.
Proof. exact bsd_cdf_wrong. Qed.
Print Assumptions C53_cdf_not_integral_refuted.
Theorem C53_out_of_range_refuted : exists d, make_bsd (Fin 1 :: nil) [Fin 0; Fin 1] ([Fin 0; NaN] :: nil) = Ok d /\ bsd_log_prob d (Fin (1 / 2)) = NInf /\ bsd_log_prob d (Fin 0) = NaN.
Proof. exact bsd_nan. Qed.
Print Assumptions C53_out_of_range_refuted.
Example C53_case : uniform_grid 1 [0; 1; 2] /\ Rlsum (map2 Rmult [1; 2] (map (fun r => nth 0 r 0) [[1; 0; 0]; [0; 0; 1]])) <> Rlsum (map2 Rmult [1; 2] (map (fun r => nth 2 r 0) [[1; 0; 0]; [0; 0; 1]])).
Proof. split; [split; [lra|intros i Hi; destruct i as [|[|i]]; cbn in *; try lra; lia]|cbn; lra]. Qed.

(** C54 *)
Theorem C54_log_prob_partial : forall d (v : list num), length v = p_N d ->
  psp_log_prob d (Tensor (length v :: nil) v) = Ok (apply_difference_prior v (p_inv_var d) (p_order d)).
Proof. exact psp_accepts. Qed.
Print Assumptions C54_log_prob_partial.
Theorem C54_rejects_partial : forall d v, t_shape v <> (p_N d :: nil) -> psp_log_prob d v = Err AssertionError.
Proof. exact psp_rejects. Qed.
Print Assumptions C54_rejects_partial.
Theorem C54_sample_shape_refuted : forall d sh, t_shape (psp_sample d sh) <> sh ++ (p_N d :: nil).
Proof. exact psp_sample_bad. Qed.
Print Assumptions C54_sample_shape_refuted.
Theorem C54_sample_rejected_refuted : forall d, psp_log_prob d (psp_sample d []) = Err AssertionError.
Proof. exact psp_sample_log_prob. Qed.
Print Assumptions C54_sample_rejected_refuted.
Example C54_case : psp_log_prob (PSP 3 (Fin 2) 1) (Tensor [3%nat] [Fin 0; Fin 1; Fin 3]) = Ok (apply_difference_prior [Fin 0; Fin 1; Fin 3] (Fin 2) 1) /\
  t_shape (psp_sample (PSP 3 (Fin 2) 1) []) = [].
Proof. split; reflexivity. Qed.

(** C103: the two gridded distributions between their grid points, and their samplers *)
Theorem C103_redshift_density : forall lamb maximum zs dV, increasing zs -> (forall z, In z zs -> -1 < z) -> (2 <= length zs)%nat -> length dV = length zs ->
  (forall v, In v dV -> 0 <= v) -> (exists v, In v dV /\ 0 < v) ->
  exists d V, make_plz (Fin lamb) (Fin maximum) (map Fin zs) (map Fin dV) = Ok d /\ broken_line zs dV V /\
    let total := trapezoid zs (map2 (fun v z => v * Rpower (1 + z) (lamb - 1)) dV zs) in
    0 < total /\ (forall z, hd 0 zs <= z <= last zs 0 -> z <= maximum -> nexp (plz_log_prob d (Fin z)) = Fin (V z * Rpower (1 + z) (lamb - 1) / total)) /\
    (forall z, maximum < z -> plz_log_prob d (Fin z) = Fin (- FMAX)).
Proof. exact redshift_density. Qed.
Print Assumptions C103_redshift_density.
Theorem C103_redshift_sampler : forall lamb maximum h zs dV, uniform_grid h zs -> (forall z, In z zs -> -1 < z) -> (2 <= length zs)%nat -> length dV = length zs ->
  0 <= hd 0 dV -> (forall v, In v (tl dV) -> 0 < v) -> last zs 0 <= maximum ->
  exists d ps cs F G, make_plz (Fin lamb) (Fin maximum) (map Fin zs) (map Fin dV) = Ok d /\ map (fun z => nexp (plz_log_prob d (Fin z))) zs = map Fin ps /\
    (forall i, (i < length zs)%nat -> nth i cs 0 = if (S i =? length zs)%nat then 1 else prefix_integral zs ps (S i) - prefix_integral zs ps 1) /\
    broken_line zs cs F /\ (forall z, plz_cdf d (Fin z) = Fin (F z)) /\ (forall u, plz_sample d (Fin u) = Fin (G u)) /\
    (forall u, 0 <= u <= 1 -> F (G u) = u) /\ (forall z, hd 0 zs <= z <= last zs 0 -> G (F z) = z).
Proof. exact redshift_inverse. Qed.
Print Assumptions C103_redshift_sampler.
Theorem C103_spline_density : forall cs grid rows, increasing grid -> (2 <= length grid)%nat -> length cs = length rows -> (forall r, In r rows -> length r = length grid) ->
  exists d L ls, make_bsd (map Fin cs) (map Fin grid) (map (map Fin) rows) = Ok d /\ length ls = length grid /\
    (forall i, (i < length grid)%nat -> nth i ls 0 = Rlsum (map2 Rmult cs (map (fun r => nth i r 0) rows))) /\ broken_line grid ls L /\
    (forall z, z <= hd 0 grid -> L z = hd 0 ls) /\ (forall z, last grid 0 <= z -> L z = last ls 0) /\
    forall z, bsd_log_prob d (Fin z) = Fin (L z - ln (trapezoid grid (map exp ls))).
Proof. exact spline_density. Qed.
Print Assumptions C103_spline_density.
Theorem C103_spline_sampler : forall h cs grid rows, uniform_grid h grid -> (2 <= length grid)%nat -> length cs = length rows -> (forall r, In r rows -> length r = length grid) ->
  exists d ps ts F G, make_bsd (map Fin cs) (map Fin grid) (map (map Fin) rows) = Ok d /\ map (fun z => nexp (bsd_log_prob d (Fin z))) grid = map Fin ps /\
    (forall i, (i < length grid)%nat -> nth i ts 0 = if (S i =? length grid)%nat then 1 else prefix_integral grid ps (S i) - prefix_integral grid ps 1) /\
    broken_line grid ts F /\ (forall z, bsd_cdf d (Fin z) = Fin (F z)) /\ (forall u, bsd_sample d (Fin u) = Fin (G u)) /\
    (forall u, 0 <= u <= 1 -> F (G u) = u) /\ (forall z, hd 0 grid <= z <= last grid 0 -> G (F z) = z).
Proof. exact spline_inverse. Qed.
Print Assumptions C103_spline_sampler.
(** the usual comoving volume element vanishes at redshift zero *)
Example C103_case : uniform_grid 1 [0; 1; 2] /\ 0 <= hd 0 [0; 1; 4] /\ (forall v, In v (tl [0; 1; 4]) -> 0 < v) /\ last [0; 1; 2] 0 <= 2 /\
  (forall r, In r [[1; 0; 0]; [0; 0; 1]] -> length r = length [0; 1; 2]).
Proof.
  split; [split; [lra|intros i Hi; destruct i as [|[|i]]; cbn in *; try lra; lia]|]. split; [cbn; lra|]. split; [intros z [<-|[<-|[]]]; lra|]. split; [cbn; lra|]. intros r [<-|[<-|[]]]; reflexivity.
Qed.
