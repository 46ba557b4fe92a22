(** PowerlawSmoothedPowerlaw. *)
From Verif Require Export Calc MNumpyro NumFacts PNatural.
From Verif Require Export Spec.
Open Scope R_scope.

Lemma int_Rpower a m M : 0 < m <= M -> a <> -1 -> is_RInt (fun x => Rpower x a) m M ((Rpower M (a + 1) - Rpower m (a + 1)) / (a + 1)).
Proof.
  intros H Ha. apply (FTC_eq (fun x => / (a + 1) * Rpower x (a + 1))); [lra| | |field; lra].
  - intros x Hx. replace (Rpower x a) with (/ (a + 1) * ((a + 1) * Rpower x (a + 1 - 1))) by (replace (a + 1 - 1) with a by ring; field; lra).
    apply is_derive_scal. apply is_derive_Rpower. lra.
  - intros x Hx. apply continuous_Rpower. lra.
Qed.
Lemma int_pos a m M : 0 < m < M -> a <> -1 -> 0 < (Rpower M (a + 1) - Rpower m (a + 1)) / (a + 1).
Proof.
  intros H Ha. destruct (Rlt_dec 0 (a + 1)) as [P|P].
  - apply Rdiv_lt_0_compat; auto. pose proof (Rpower_lt_l m M (a + 1) ltac:(lra) ltac:(lra) P). lra.
  - assert (N : a + 1 < 0) by lra. pose proof (Rpower_lt_l_neg m M (a + 1) ltac:(lra) ltac:(lra) N).
    replace ((Rpower M (a + 1) - Rpower m (a + 1)) / (a + 1)) with ((Rpower m (a + 1) - Rpower M (a + 1)) / - (a + 1)) by (field; lra). apply Rdiv_lt_0_compat; lra.
Qed.
Section S.
Variables (alpha m M amax amin low high : R).
Hypothesis H0 : 0 < low < m.
Hypothesis H1 : m < M < high.
Hypothesis Ha : alpha <> -1.
Hypothesis Hx : amax <> 1.
Hypothesis Hn : amin <> -1.
Let L := (Rpower m (amin + 1) - Rpower low (amin + 1)) / (amin + 1).
Let gam := (amin + 1) / (Rpower m (amin + 1) - Rpower low (amin + 1)).
Let c2 := Rpower m (amin - alpha).
Let c3 := c2 * Rpower M (alpha + amax).
Let A := c2 * ((Rpower M (alpha + 1) - Rpower m (alpha + 1)) / (alpha + 1)) + c3 * ((Rpower high (- amax + 1) - Rpower M (- amax + 1)) / (- amax + 1)).
Lemma L_pos : 0 < L. Proof. apply int_pos; auto; lra. Qed.
Lemma L_den : Rpower m (amin + 1) - Rpower low (amin + 1) <> 0.
Proof. pose proof L_pos as P. unfold L in P. intros E. rewrite E in P. unfold Rdiv in P. lra. Qed.
Lemma gam_L : gam = / L. Proof. unfold gam, L. pose proof L_den. field. lra. Qed.
Lemma c2_pos : 0 < c2. Proof. apply Rpower_pos. Qed.
Lemma c3_pos : 0 < c3. Proof. apply Rmult_lt_0_compat; [apply c2_pos|apply Rpower_pos]. Qed.
Lemma A_pos : 0 < A.
Proof. pose proof c2_pos. pose proof c3_pos. unfold A. apply Rplus_lt_0_compat; apply Rmult_lt_0_compat; auto; apply int_pos; lra. Qed.
Definition smooth_f (k : R) (v : R) : R := if Rltb v m then k * Rpower v amin else if Rleb v M then k * c2 * Rpower v alpha else k * c3 * Rpower v (- amax).
Let D := Rpower m (amin + 1).
Let d := make_pspl (Fin alpha) (Fin m) (Fin M) (Fin amax) (Fin amin) (Fin low) (Fin high).
Lemma make_pspl_fin : d = let k1 := ndiv (Fin (- gam)) (Fin (1 - gam * A)) in let k2 := nmul k1 (Fin c2) in PSPL (Fin alpha) (Fin m) (Fin M) (Fin (- amax)) (Fin amin) k1 k2 (nmul k2 (Fin (Rpower M (alpha + amax)))).
Proof.
  unfold d, make_pspl. rewrite ?nneg_fin, ?nadd_fin, ?nsub_fin. rewrite !npow_fin by lra. rewrite ?nadd_fin, ?nsub_fin. pose proof L_den.
  rewrite (ndiv_fin (amin + 1)) by auto. rewrite (ndiv_fin _ (alpha + 1)), (ndiv_fin _ (- amax + 1)) by lra. rewrite ?nneg_fin, ?nmul_fin, ?nadd_fin, ?nsub_fin. cbv zeta.
  replace (alpha - - amax) with (alpha + amax) by ring. fold gam c2. assert (E : 1 + gam / (alpha + 1) * c2 * (Rpower m (alpha + 1) - Rpower M (alpha + 1)) + gam / (- amax + 1) * c2 * Rpower M (alpha + amax) * (Rpower M (- amax + 1) - Rpower high (- amax + 1)) = 1 - gam * A).
  { unfold A, c3. field. lra. }
  rewrite E. reflexivity.
Qed.
Lemma lp_pos k v : 0 < k -> 0 < v -> nexp (pspl_log_prob (PSPL (Fin alpha) (Fin m) (Fin M) (Fin (- amax)) (Fin amin) (Fin k) (Fin (k * c2)) (Fin (k * c2 * Rpower M (alpha + amax)))) (Fin v)) = Fin (smooth_f k v).
Proof.
  intros Hk Hv. pose proof c2_pos. pose proof c3_pos. unfold pspl_log_prob. cbn [s_min s_max s_k1 s_k2 s_k3 s_amin s_amax s_alpha].
  assert (0 < k * c2) by nra. replace (k * c2 * Rpower M (alpha + amax)) with (k * c3) by (unfold c3; ring). assert (0 < k * c3) by nra.
  rewrite (nlog_fin k), (nlog_fin (k * c2)), (nlog_fin (k * c3)), (nlog_fin v) by auto. rewrite !nmul_fin, !nadd_fin. unfold ngt, nge. cbn [nlt nle]. unfold smooth_f.
  destruct (Rlt_dec v m) as [C1|C1]; [rewrite (Rltb_t v m), (Rltb_f M v), (Rleb_f m v) by lra|rewrite (Rltb_f v m), (Rleb_t m v) by lra; destruct (Rle_dec v M) as [C2|C2];
    [rewrite (Rltb_f M v), (Rleb_t v M) by lra|rewrite (Rltb_t M v), (Rleb_f v M) by lra]]; cbn [nwhere]; rewrite !nadd_fin, nexp_fin; apply (f_equal Fin); rewrite ?Rplus_0_l, ?Rplus_0_r, exp_plus, exp_ln by auto; unfold Rpower at 1; rewrite (Rmult_comm (ln v)); reflexivity.
Qed.
Lemma smooth_int k : is_RInt (smooth_f k) low high (k * (L + A)).
Proof.
  eapply is_RInt_val; [eapply (is_RInt_ChaslesR _ _ m); [|eapply (is_RInt_ChaslesR _ _ M)]|].
  - apply (is_RInt_ext_open (fun x => k * Rpower x amin)); [lra| |apply is_RInt_scalR, int_Rpower; auto; lra]. intros x Hxx. unfold smooth_f. rewrite Rltb_t by lra. reflexivity.
  - apply (is_RInt_ext_open (fun x => k * c2 * Rpower x alpha)); [lra| |apply is_RInt_scalR, int_Rpower; auto; lra]. intros x Hxx. unfold smooth_f. rewrite Rltb_f, Rleb_t by lra. reflexivity.
  - apply (is_RInt_ext_open (fun x => k * c3 * Rpower x (- amax))); [lra| |apply is_RInt_scalR, int_Rpower; auto; lra]. intros x Hxx. unfold smooth_f. rewrite Rltb_f, Rleb_f by lra. reflexivity.
  - fold L. unfold A. ring.
Qed.
Lemma smooth_case : (exists k, 0 < k /\ 1 < k * (L + A) /\ forall v, 0 < v -> nexp (pspl_log_prob d (Fin v)) = Fin (smooth_f k v)) \/ (forall v, 0 < v -> pspl_log_prob d (Fin v) = NaN).
Proof.
  pose proof L_pos as PL. pose proof A_pos as PA. pose proof gam_L as G. pose proof c2_pos as P2. assert (PG : 0 < gam) by (rewrite G; apply Rinv_0_lt_compat; auto).
  assert (NEG : forall k1, nlog k1 = NaN -> nlog (nmul k1 (Fin c2)) = NaN -> nlog (nmul (nmul k1 (Fin c2)) (Fin (Rpower M (alpha + amax)))) = NaN ->
    forall v, 0 < v -> pspl_log_prob (PSPL (Fin alpha) (Fin m) (Fin M) (Fin (- amax)) (Fin amin) k1 (nmul k1 (Fin c2)) (nmul (nmul k1 (Fin c2)) (Fin (Rpower M (alpha + amax))))) (Fin v) = NaN).
  { intros k1 E1 E2 E3 v Hv. unfold pspl_log_prob. cbn [s_min s_max s_k1 s_k2 s_k3 s_amin s_amax s_alpha]. rewrite E1, E2, E3. rewrite nlog_fin by auto. rewrite !nmul_fin. unfold ngt, nge. cbn [nlt nle].
    destruct (Rlt_dec v m) as [C1|C1]; [rewrite (Rltb_t v m), (Rltb_f M v), (Rleb_f m v) by lra|rewrite (Rltb_f v m), (Rleb_t m v) by lra; destruct (Rle_dec v M) as [C2|C2];
    [rewrite (Rltb_f M v), (Rleb_t v M) by lra|rewrite (Rltb_t M v), (Rleb_f v M) by lra]]; reflexivity. }
  rewrite make_pspl_fin. cbv zeta. destruct (Rtotal_order (gam * A) 1) as [C|[C|C]].
  - right. rewrite ndiv_fin by lra. assert (K : - gam / (1 - gam * A) < 0) by (unfold Rdiv; assert (0 < / (1 - gam * A)) by (apply Rinv_0_lt_compat; lra); nra). pose proof (Rpower_pos M (alpha + amax)) as PP. set (k := - gam / (1 - gam * A)) in *.
    assert (N : forall x, x < 0 -> nlog (Fin x) = NaN) by (intros x Hxx; cbn [nlog]; rewrite Rltb_f, Reqb_f by lra; reflexivity). assert (k * c2 < 0) by nra.
    assert (k * c2 * Rpower M (alpha + amax) < 0) by nra. apply NEG; rewrite ?nmul_fin; apply N; auto.
  - right. rewrite C. cbn [ndiv]. rewrite Reqb_t by lra. unfold sinf. rewrite Rltb_f, Rltb_t by lra. pose proof (Rpower_pos M (alpha + amax)) as PP.
    assert (E2 : nmul NInf (Fin c2) = NInf) by (cbn [nmul]; unfold sinf; rewrite Rltb_t by auto; reflexivity).
    assert (E3 : nmul NInf (Fin (Rpower M (alpha + amax))) = NInf) by (cbn [nmul]; unfold sinf; rewrite Rltb_t by auto; reflexivity). apply NEG; rewrite ?E2, ?E3; reflexivity.
  - left. rewrite ndiv_fin by lra. exists (gam / (gam * A - 1)). assert (E : - gam / (1 - gam * A) = gam / (gam * A - 1)) by (field; lra). rewrite E, !nmul_fin.
    assert (PK : 0 < gam / (gam * A - 1)) by (apply Rdiv_lt_0_compat; lra). split; auto. split; [|intros v Hv; apply lp_pos; auto].
    assert (E2 : gam / (gam * A - 1) * (L + A) = (gam * A + 1) / (gam * A - 1)) by (assert (GL : gam * L = 1) by (rewrite G; field; lra); rewrite <- GL at 2; field; lra).
    rewrite E2. apply Rmult_lt_reg_r with (gam * A - 1); [lra|]. unfold Rdiv. rewrite Rmult_assoc, Rinv_l by lra. lra.
Qed.
Lemma smooth_cont k : continuous (smooth_f k) m /\ continuous (smooth_f k) M.
Proof.
  assert (P : Rpower m amin = c2 * Rpower m alpha) by (unfold c2; rewrite <- Rpower_plus; f_equal; ring).
  assert (Q : c2 * Rpower M alpha = c3 * Rpower M (- amax)) by (unfold c3; rewrite Rmult_assoc, <- Rpower_plus; do 2 f_equal; ring).
  assert (CP : forall c a x, 0 < x -> continuous (fun t => k * c * Rpower t a) x) by (intros; apply cont_scal, continuous_Rpower; auto).
  split.
  - set (e := Rmin (m - low) (M - m)). assert (He : 0 < e /\ e <= m - low /\ e <= M - m) by (unfold e; repeat split; [apply Rmin_glb_lt; lra|apply Rmin_l|apply Rmin_r]).
    apply (glue_cont _ (fun t => k * 1 * Rpower t amin) (fun t => k * c2 * Rpower t alpha) m e); try (apply CP; lra); try lra.
    + intros y Hy. apply Rabs_def2 in Hy. unfold smooth_f. destruct (Rlt_dec y m); [rewrite Rltb_t by auto; left; ring|rewrite Rltb_f, Rleb_t by lra; right; ring].
    + unfold smooth_f. rewrite Rltb_f, Rleb_t by lra. rewrite P. ring.
    + unfold smooth_f. rewrite Rltb_f, Rleb_t by lra. ring.
  - set (e := Rmin (high - M) (M - m)). assert (He : 0 < e /\ e <= high - M /\ e <= M - m) by (unfold e; repeat split; [apply Rmin_glb_lt; lra|apply Rmin_l|apply Rmin_r]).
    apply (glue_cont _ (fun t => k * c2 * Rpower t alpha) (fun t => k * c3 * Rpower t (- amax)) M e); try (apply CP; lra); try lra.
    + intros y Hy. apply Rabs_def2 in Hy. unfold smooth_f. rewrite Rltb_f by lra. destruct (Rle_dec y M); [rewrite Rleb_t by auto; left; ring|rewrite Rleb_f by lra; right; ring].
    + unfold smooth_f. rewrite Rltb_f, Rleb_t by lra. ring.
    + unfold smooth_f. rewrite Rltb_f, Rleb_t by lra. rewrite !Rmult_assoc. rewrite Q. ring.
Qed.
End S.
(** a power of -1 in any piece makes the normalising constant NaN *)
Definition nfin (x : num) : Prop := exists r, x = Fin r.
Lemma div0_inf x : ~ nfin (x / Fin 0)%num.
Proof. intros [r E]. unfold ndiv in E. destruct x; try discriminate. - rewrite (Reqb_t 0 0 eq_refl) in E. unfold sinf in E. destruct (Rltb 0 r0); [discriminate|]. destruct (Rltb r0 0); discriminate. - destruct (Rltb 0 0); discriminate. - destruct (Rltb 0 0); discriminate. Qed.
Lemma inf_mul x y : ~ nfin x -> ~ nfin (x * Fin y)%num.
Proof. intros N [r E]. apply N. unfold nmul in E. destruct x; try discriminate; [now eexists|..]; unfold sinf in E; destruct (Rltb 0 y); try discriminate; destruct (Rltb y 0); discriminate. Qed.
Lemma inf_zero x : ~ nfin x -> (x * Fin 0)%num = NaN.
Proof. intros N. destruct x; [exfalso; apply N; now eexists|..|reflexivity]; unfold nmul, sinf; rewrite Rltb_f by lra; reflexivity. Qed.
Lemma nan_add_l x : (NaN + x)%num = NaN. Proof. destruct x; reflexivity. Qed.
Lemma nan_add_r x : (x + NaN)%num = NaN. Proof. destruct x; reflexivity. Qed.
Lemma nan_div_l x : (NaN / x)%num = NaN. Proof. destruct x; reflexivity. Qed.
Lemma nan_div_r x : (x / NaN)%num = NaN. Proof. destruct x; reflexivity. Qed.
Lemma nan_mul_l x : (NaN * x)%num = NaN. Proof. destruct x; reflexivity. Qed.
Lemma smooth_special alpha m M amax amin low high : 0 < low < m -> m < M < high -> alpha = -1 \/ amax = 1 \/ amin = -1 ->
  forall v, pspl_log_prob (make_pspl (Fin alpha) (Fin m) (Fin M) (Fin amax) (Fin amin) (Fin low) (Fin high)) (Fin v) = NaN.
Proof.
  intros H0 H1 S v.
  assert (K : s_k1 (make_pspl (Fin alpha) (Fin m) (Fin M) (Fin amax) (Fin amin) (Fin low) (Fin high)) = NaN).
  { unfold make_pspl. cbn [s_k1]. rewrite ?nneg_fin, ?nadd_fin, ?nsub_fin, !npow_fin by lra. rewrite ?nsub_fin. destruct S as [->|[->| ->]].
    - replace (-1 + 1) with 0 by ring. rewrite !Rpower_O by lra. replace (1 - 1) with 0 by ring. rewrite (inf_zero (_ / Fin 0 * _)%num) by apply inf_mul, div0_inf.
      now rewrite nan_add_r, nan_add_l, nan_div_r.
    - replace (- (1) + 1) with 0 by ring. rewrite !(Rpower_O M), !(Rpower_O high) by lra. replace (1 - 1) with 0 by ring. rewrite (inf_zero (_ / Fin 0 * _ * _)%num) by apply inf_mul, inf_mul, div0_inf.
      now rewrite nan_add_r, nan_div_r.
    - replace (-1 + 1) with 0 by ring. rewrite (Rpower_O m), (Rpower_O low) by lra. replace (1 - 1) with 0 by ring. replace (Fin 0 / Fin 0)%num with NaN by (unfold ndiv; rewrite (Reqb_t 0 0 eq_refl); unfold sinf; rewrite Rltb_f by lra; reflexivity).
      cbn [nneg]. apply nan_div_l. }
  assert (K2 : s_k2 (make_pspl (Fin alpha) (Fin m) (Fin M) (Fin amax) (Fin amin) (Fin low) (Fin high)) = NaN).
  { change (s_k1 (make_pspl (Fin alpha) (Fin m) (Fin M) (Fin amax) (Fin amin) (Fin low) (Fin high)) * npow (Fin m) (Fin amin - Fin alpha) = NaN)%num. rewrite K. apply nan_mul_l. }
  assert (K3 : s_k3 (make_pspl (Fin alpha) (Fin m) (Fin M) (Fin amax) (Fin amin) (Fin low) (Fin high)) = NaN).
  { change (s_k2 (make_pspl (Fin alpha) (Fin m) (Fin M) (Fin amax) (Fin amin) (Fin low) (Fin high)) * npow (Fin M) (Fin alpha - - Fin amax) = NaN)%num. rewrite K2. apply nan_mul_l. }
  unfold pspl_log_prob. rewrite K, K2, K3. unfold make_pspl; cbn [s_min s_max s_amin s_amax s_alpha nlog]. rewrite !nan_add_l. unfold ngt, nge. cbn [nlt nle].
  destruct (Rlt_dec v m).
  - rewrite Rltb_t by lra. cbn [nwhere]. now rewrite !nan_add_l.
  - rewrite (Rleb_t m v) by lra. destruct (Rle_dec v M).
    + rewrite (Rleb_t v M) by lra. cbn [nwhere]. now rewrite nan_add_r, nan_add_l.
    + rewrite (Rltb_t M v) by lra. cbn [nwhere]. now rewrite nan_add_r.
Qed.
(** never a normalised density: above one, or NaN everywhere *)
Lemma smooth_not_normalised alpha m M amax amin low high : 0 < low < m -> m < M < high ->
  let lp v := pspl_log_prob (make_pspl (Fin alpha) (Fin m) (Fin M) (Fin amax) (Fin amin) (Fin low) (Fin high)) (Fin v) in
  (forall v, low <= v <= high -> lp v = NaN) \/
  (exists f I, (forall v, low <= v <= high -> nexp (lp v) = Fin (f v)) /\ is_RInt f low high I /\ 1 < I).
Proof.
  intros H0 H1 lp. destruct (Req_dec alpha (-1)) as [Ea|Ha]; [left; intros v _; apply smooth_special; auto|]. destruct (Req_dec amax 1) as [Ex|Hx]; [left; intros v _; apply smooth_special; auto|]. destruct (Req_dec amin (-1)) as [En|Hn]; [left; intros v _; apply smooth_special; auto|].
  destruct (smooth_case alpha m M amax amin low high H0 H1 Ha Hx Hn) as [(k & Hk & HI & F)|N].
  - right. eexists _, _. split; [intros v Hv; apply F; lra|]. split; [|apply HI]. apply smooth_int; auto.
  - left. intros v Hv. apply N. lra.
Qed.
Lemma smooth_continuous alpha m M amax amin low high : 0 < low < m -> m < M < high ->
  let lp v := pspl_log_prob (make_pspl (Fin alpha) (Fin m) (Fin M) (Fin amax) (Fin amin) (Fin low) (Fin high)) (Fin v) in
  (exists v, low <= v <= high /\ lp v <> NaN) ->
  exists f, (forall v, 0 < v -> nexp (lp v) = Fin (f v)) /\ continuous f m /\ continuous f M /\
    (exists k1 k2 k3, 0 < k1 /\ 0 < k2 /\ 0 < k3 /\ (forall v, 0 < v < m -> f v = k1 * Rpower v amin) /\ (forall v, m <= v <= M -> f v = k2 * Rpower v alpha) /\ (forall v, M < v -> f v = k3 * Rpower v (- amax))).
Proof.
  intros H0 H1 lp (w & Hw & Nw). destruct (Req_dec alpha (-1)) as [Ea|Ha]; [exfalso; apply Nw, smooth_special; auto|]. destruct (Req_dec amax 1) as [Ex|Hx]; [exfalso; apply Nw, smooth_special; auto|]. destruct (Req_dec amin (-1)) as [En|Hn]; [exfalso; apply Nw, smooth_special; auto|].
  destruct (smooth_case alpha m M amax amin low high H0 H1 Ha Hx Hn) as [(k & Hk & HI & F)|N].
  - exists (smooth_f alpha m M amax amin k). split; [exact F|]. destruct (smooth_cont alpha m M amax amin low high H0 H1 k) as [C1 C2]. split; auto. split; auto.
    exists k, (k * Rpower m (amin - alpha)), (k * (Rpower m (amin - alpha) * Rpower M (alpha + amax))). pose proof (Rpower_pos m (amin - alpha)). pose proof (Rpower_pos M (alpha + amax)).
    split; auto. split; [nra|]. split; [repeat apply Rmult_lt_0_compat; auto|]. unfold smooth_f. repeat split; intros v Hv.
    + rewrite Rltb_t by lra. reflexivity.
    + rewrite Rltb_f, Rleb_t by lra. reflexivity.
    + rewrite Rltb_f, Rleb_f by lra. reflexivity.
  - exfalso. apply Nw, N. lra.
Qed.
