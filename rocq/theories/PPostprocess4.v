(** The mass curves and the rate evolution curves. *)
From Verif Require Export PPostprocess3.
From Verif Require Import ArrFacts NumFacts PDistributions PParametric PBSplineMake PBSplineGauge PBSplines PSplinePert PSplinePert2 PNumpyroDist PConstruct Calc.
From Verif Require Import Spec.
Open Scope R_scope.

Lemma mask_flat mmin ms qs (F : R -> R -> num) : mask_above (Fin mmin) (mesh_m (map Fin ms) (map Fin qs)) (mesh_q (map Fin ms) (map Fin qs)) (flat_map (fun q => map (F q) ms) qs)
  = flat_map (fun q => map (fun m => nwhere (ngt (Fin q) (ndiv (Fin mmin) (Fin m))) (F q m) (Fin 0)) ms) qs.
Proof. unfold mask_above. rewrite mesh_pairs. rewrite (map2_flat _ (fun q m => (Fin m, Fin q)) F). cbn [fst snd]. auto. Qed.
Lemma above_true mmin m q : 0 < m -> ngt (Fin q) (ndiv (Fin mmin) (Fin m)) = Rltb mmin (q * m).
Proof.
  intros H. rewrite ndiv_fin by lra. unfold ngt. cbn [nlt]. assert (E : mmin / m * m = mmin) by (field; lra).
  destruct (Rlt_le_dec mmin (q * m)) as [L|L].
  - rewrite (Rltb_t mmin) by auto. apply Rltb_t. apply Rmult_lt_reg_r with m; auto. lra.
  - rewrite (Rltb_f mmin) by auto. apply Rltb_f. apply Rmult_le_reg_r with m; auto. lra.
Qed.
Lemma product_flat ms qs (F G : R -> R -> num) : product (flat_map (fun q => map (F q) ms) qs) (flat_map (fun q => map (G q) ms) qs) = Ok (flat_map (fun q => map (fun m => nmul (F q m) (G q m)) ms) qs).
Proof.
  unfold product. assert (L : forall H : R -> R -> num, length (flat_map (fun q => map (H q) ms) qs) = (length qs * length ms)%nat).
  { intros H. induction qs; cbn; auto. rewrite app_length, map_length, IHqs. auto. }
  rewrite !L, Nat.eqb_refl, map2_flat. auto.
Qed.
Section Masses.
Variables mmin mmax : R.
Hypothesis HM : 0 < mmin < mmax.
Let ms := rlinspace mmin mmax 800.
Let qs := rlinspace (mmin / mmax) 1 800.
Lemma q_range : 0 < mmin / mmax < 1.
Proof. split; [apply Rdiv_lt_0_compat; lra|]. apply Rmult_lt_reg_r with mmax; [lra|]. unfold Rdiv. rewrite Rmult_assoc, Rinv_l; lra. Qed.
Lemma ms_in m : In m ms -> mmin <= m <= mmax. Proof. intros H. apply rlinspace_range in H; lra. Qed.
Lemma qs_in q : In q qs -> mmin / mmax <= q <= 1. Proof. intros H. apply rlinspace_range in H; auto. pose proof q_range. lra. Qed.
Lemma grids : nlinspace (Fin mmin) (Fin mmax) PPD_POINTS = map Fin ms /\ nlinspace (ndiv (Fin mmin) (Fin mmax)) (Fin 1) PPD_POINTS = map Fin qs.
Proof. unfold PPD_POINTS. rewrite ndiv_fin by lra. rewrite !nlinspace_fin by apply two_eight. auto. Qed.
(** the curves of a masked joint density *)
Lemma joint_curves (J : R -> R -> R) r f : (forall m q, mmin <= m <= mmax -> mmin / mmax <= q <= 1 -> 0 <= J m q) -> 0 < J mmax 1 ->
  let o := mass_curves (map Fin ms) (map Fin qs) (flat_map (fun q => map (fun m => Fin (J m q)) ms) qs) (Fin r) (Fin f) in mass_rate_curves mmin mmax J (r * f) (fst o) (snd o).
Proof.
  intros HJ HP. apply (mass_curves_ok ms qs J r f mmax 1); auto; try apply rlinspace_increasing; try apply lin_len; try (apply in_last, two_eight); try apply q_range; try lra.
  intros m q Hm Hq. apply HJ; [apply ms_in|apply qs_in]; auto.
Qed.
Lemma plpeak_masses ds rate frac : one_per_draw (length ds) rate -> one_per_draw (length ds) frac ->
  (forall a b mp sig lam, In (a, b, mp, sig, lam) ds -> 0 < sig /\ 0 <= lam <= 1) ->
  exists mc qc, calculate_powerlaw_peak_mass_ppds (Fin mmin) (Fin mmax) (map (fun '(a, b, mp, sig, lam) => (Fin a, Fin b, Fin mp, Fin sig, Fin lam)) ds) (given rate) (given frac)
      = Ok (mc, map Fin ms, qc, map Fin qs) /\ length mc = length ds /\ length qc = length ds /\
    forall i a b mp sig lam, nth_error ds i = Some (a, b, mp, sig, lam) -> exists J,
      cut_joint mmin mmax (fun m2 => mmin < m2) (fun m q => plpeak_primary_ratio_pdf (Fin m) (Fin q) (Fin a) (Fin b) (Fin mmin) (Fin mmax) (Fin mp) (Fin sig) (Fin lam) None) J /\
      mass_rate_curves mmin mmax J (total_rate rate frac i) (nth i mc []) (nth i qc []).
Proof.
  intros HR HF HD. unfold calculate_powerlaw_peak_mass_ppds. cbv zeta. destruct grids as [-> ->].
  match goal with |- context [all_draws ?ff (map ?hh ds) _ _] => set (h := hh); set (f := ff) end.
  destruct (all_ok h f (fun d tot out => let '(a, b, mp, sig, lam) := d in exists J,
      cut_joint mmin mmax (fun m2 => mmin < m2) (fun m q => plpeak_primary_ratio_pdf (Fin m) (Fin q) (Fin a) (Fin b) (Fin mmin) (Fin mmax) (Fin mp) (Fin sig) (Fin lam) None) J /\
      mass_rate_curves mmin mmax J tot (fst out) (snd out)) ds rate frac HR HF) as (os & E & L & K).
  - intros [[[[a b] mp] sig] lam] r q Hd. destruct (HD _ _ _ _ _ Hd) as [Hs Hl]. eexists. split; [reflexivity|].
    set (g := fun m1 => (1 - lam) * (plnorm a mmin mmax * Rpower m1 a) + lam * tn_f mp sig mmin mmax m1).
    assert (GP : forall m, 0 < g m).
    { intros m. unfold g. pose proof (plnorm_pos a mmin mmax HM). pose proof (Rpower_pos m a). pose proof (tn_f_pos mp sig mmin mmax m Hs (proj2 HM)).
      assert (0 < plnorm a mmin mmax * Rpower m a) by (apply Rmult_lt_0_compat; auto). destruct (Rlt_le_dec 0 lam).
      - apply Rplus_le_lt_0_compat; [apply Rmult_le_pos; lra|apply Rmult_lt_0_compat; auto].
      - assert (lam = 0) by lra. subst lam. lra. }
    set (J := fun m q => if Rltb mmin (q * m) then plnorm b (mmin / m) 1 * Rpower q b * g m else 0).
    assert (IN : forall m q, mmin <= m <= mmax -> q <= 1 -> mmin < q * m -> 0 < mmin / m < 1 /\ mmin / m <= q).
    { intros m q' Hm Hq Hc. assert (mmin < m) by nra. assert (E : mmin / m * m = mmin) by (field; lra). split; [split; [apply Rdiv_lt_0_compat; lra|]|]; [apply Rmult_lt_reg_r with m; lra|apply Rmult_le_reg_r with m; lra]. }
    assert (V : forall m q, mmin <= m <= mmax -> q <= 1 -> mmin < q * m -> plpeak_primary_ratio_pdf (Fin m) (Fin q) (Fin a) (Fin b) (Fin mmin) (Fin mmax) (Fin mp) (Fin sig) (Fin lam) None = Fin (J m q)).
    { intros m q' Hm Hq Hc. destruct (IN m q' Hm Hq Hc) as [I1 I2]. unfold plpeak_primary_ratio_pdf, J. rewrite plpeak_in by (auto; lra). rewrite ndiv_fin by lra. rewrite powerlaw_pdf_in by (auto; lra). rewrite (Rltb_t mmin) by auto. apply nmul_fin. }
    exists J. split.
    + intros m q' Hm Hq. split; [intros; apply V; auto; lra|]. intros N. unfold J. rewrite Rltb_f by lra. auto.
    + cbv beta iota. match goal with |- context [map2 ?F _ _] => set (pl := F) end.
      assert (EP : map2 pl (mesh_m (map Fin ms) (map Fin qs)) (mesh_q (map Fin ms) (map Fin qs)) = flat_map (fun q => map (fun m => pl (Fin m) (Fin q)) ms) qs)
        by (rewrite mesh_m_eq, mesh_q_eq; apply (map2_flat pl (fun _ m => Fin m) (fun q _ => Fin q))).
      rewrite EP. clear EP. unfold pl. rewrite mask_flat. rewrite (flat_ext _ (fun q => map (fun m => Fin (J m q)) ms)).
      * apply joint_curves.
        -- intros m q' Hm Hq. unfold J. destruct (Rltb mmin (q' * m)) eqn:C1; [|lra]. apply Rltb_true in C1. destruct (IN m q' Hm ltac:(lra) C1) as [I1 I2]. pose proof (plnorm_pos b (mmin / m) 1 I1). pose proof (Rpower_pos q' b). specialize (GP m).
           left. apply Rmult_lt_0_compat; auto. apply Rmult_lt_0_compat; auto.
        -- unfold J. rewrite (Rltb_t mmin) by lra. pose proof (plnorm_pos b (mmin / mmax) 1 q_range). pose proof (Rpower_pos 1 b). specialize (GP mmax). apply Rmult_lt_0_compat; auto. apply Rmult_lt_0_compat; auto.
      * intros q' Hq. apply map_ext_in. intros m Hm. apply ms_in in Hm. apply qs_in in Hq. rewrite above_true by lra. destruct (Rltb mmin (q' * m)) eqn:C1; cbn [nwhere].
        -- apply Rltb_true in C1. apply V; auto; lra.
        -- unfold J. rewrite C1. auto.
  - rewrite E. cbn [rbind]. exists (map fst os), (map snd os). split; auto. rewrite !map_length. split; auto. split; auto. intros i a b mp sig lam Hi. destruct (K i _ Hi) as (out & Eo & Po).
    rewrite (nth_some _ _ _ _ (map_nth_error fst _ _ Eo)), (nth_some _ _ _ _ (map_nth_error snd _ _ Eo)). exact Po.
Qed.
Lemma flat_fin {A} (f : A -> R -> R) (ls : list R) (l : list A) : flat_map (fun q => map (fun m => Fin (f q m)) ls) l = map Fin (flat_map (fun q => map (f q) ls) l).
Proof. rewrite map_flat. apply flat_ext. intros. rewrite map_map. auto. Qed.
(** spline masses *)
Lemma spline_masses n_m n_q ds rate frac : (4 <= n_m)%nat -> (4 <= n_q)%nat -> wide_range KLogXLogY n_m 4 mmin mmax -> wide_range KLogY n_q 4 (mmin / mmax) 1 ->
  one_per_draw (length ds) rate -> one_per_draw (length ds) frac -> (forall m q, In (m, q) ds -> log_coefs n_m m /\ log_coefs n_q q) ->
  exists mc qc, calculate_bspline_mass_ppds n_m n_q (Fin mmin) (Fin mmax) (map (fun d => (map Fin (fst d), map Fin (snd d))) ds) (given rate) (given frac)
      = Ok (mc, map Fin ms, qc, map Fin qs) /\ length mc = length ds /\ length qc = length ds /\
    forall i cm cq, nth_error ds i = Some (cm, cq) -> exists pm pq J,
      (forall m, mmin <= m <= mmax -> density_at KLogXLogY (Fin mmin, Fin mmax) no_opts n_m (map Fin cm) (Fin m) (Fin (pm m))) /\
      (forall q, mmin / mmax <= q <= 1 -> density_at KLogY (Fin (mmin / mmax), Fin 1) no_opts n_q (map Fin cq) (Fin q) (Fin (pq q))) /\
      cut_joint mmin mmax (fun m2 => mmin < m2) (fun m q => Fin (pm m * pq q)) J /\
      mass_rate_curves mmin mmax J (total_rate rate frac i) (nth i mc []) (nth i qc []).
Proof.
  intros NM NQ WM WQ HR HF HD. unfold calculate_bspline_mass_ppds. cbv zeta. destruct grids as [-> ->]. pose proof q_range as QR.
  set (Mx := flat_map (fun _ : R => map (fun m => m) ms) qs). set (Qx := flat_map (fun q => map (fun _ : R => q) ms) qs).
  assert (EMx : mesh_m (map Fin ms) (map Fin qs) = map Fin Mx) by (rewrite mesh_m_eq; apply (flat_fin (fun _ m => m))).
  assert (EQx : mesh_q (map Fin ms) (map Fin qs) = map Fin Qx) by (rewrite mesh_q_eq; apply (flat_fin (fun q _ => q))).
  set (o := Opts _ _ _ _ _ _).
  destruct (m1d_log KLogXLogY KLogXLogY o n_m mmin mmax Mx (map Fin ms) eq_refl eq_refl ltac:(repeat split) eq_refl NM ltac:(split; [lra|intros; lra]) WM) as (mm & EM & CM).
  { intros x Hx. apply in_flat_map in Hx as (q & _ & Hx). rewrite map_id in Hx. apply ms_in; auto. }
  destruct (m1d_log KLogY KLogY o n_q (mmin / mmax) 1 Qx (map Fin qs) eq_refl eq_refl ltac:(repeat split) eq_refl NQ ltac:(split; [lra|discriminate]) WQ) as (mq & EQ & CQ).
  { intros x Hx. apply in_flat_map in Hx as (q & Hq & Hx). apply in_map_iff in Hx as (y & <- & _). apply qs_in; auto. }
  unfold primary_ratio, mass_model, ratio_model. rewrite EMx, EQx, EM. cbn [rbind]. rewrite ndiv_fin by lra. rewrite EQ. cbn [rbind]. rewrite <- EMx, <- EQx. clear EMx EQx.
  match goal with |- context [all_draws ?ff (map ?hh ds) _ _] => set (h := hh); set (f := ff) end.
  destruct (all_ok h f (fun d tot out => exists pm pq J,
      (forall m, mmin <= m <= mmax -> density_at KLogXLogY (Fin mmin, Fin mmax) no_opts n_m (map Fin (fst d)) (Fin m) (Fin (pm m))) /\
      (forall q, mmin / mmax <= q <= 1 -> density_at KLogY (Fin (mmin / mmax), Fin 1) no_opts n_q (map Fin (snd d)) (Fin q) (Fin (pq q))) /\
      cut_joint mmin mmax (fun m2 => mmin < m2) (fun m q => Fin (pm m * pq q)) J /\
      mass_rate_curves mmin mmax J tot (fst out) (snd out)) ds rate frac HR HF) as (os & E & L & K).
  - intros [cm cq] r q0 Hd. destruct (HD _ _ Hd) as ((Lm & Bm) & (Lq & Bq)). destruct (CM cm Lm Bm) as (pm & Epm & Ppm). destruct (CQ cq Lq Bq) as (pq & Epq & Ppq).
    unfold f, h, primary_ratio_call. cbn [fst snd]. rewrite Epq, Epm. cbn [rbind]. unfold Mx, Qx. rewrite !map_flat.
    rewrite (flat_ext _ (fun q => map (fun _ => Fin (pq q)) ms) qs) by (intros; rewrite map_map; auto). rewrite (flat_ext (fun x => map (fun x0 => Fin (pm x0)) (map (fun m => m) ms)) (fun q => map (fun m => Fin (pm m)) ms) qs) by (intros; rewrite map_map; auto).
    rewrite (product_flat ms qs (fun q _ => Fin (pq q)) (fun _ m => Fin (pm m))). cbn [rbind]. eexists. split; [reflexivity|].
    set (J := fun m q => if Rltb mmin (q * m) then pm m * pq q else 0). exists pm, pq, J. split; [apply Ppm|]. split; [apply Ppq|]. split.
    + intros m q Hm Hq. unfold J. split; intros H; [rewrite Rltb_t|rewrite Rltb_f]; auto; lra.
    + rewrite mask_flat. rewrite (flat_ext _ (fun q => map (fun m => Fin (J m q)) ms)).
      * apply joint_curves.
        -- intros m q Hm Hq. unfold J. destruct (Rltb mmin (q * m)); [|lra]. left. apply Rmult_lt_0_compat; [apply Ppm|apply Ppq]; auto.
        -- unfold J. rewrite Rltb_t by lra. apply Rmult_lt_0_compat; [apply Ppm|apply Ppq]; lra.
      * intros q Hq. apply map_ext_in. intros m Hm. apply ms_in in Hm. rewrite above_true by lra. rewrite nmul_fin. unfold J. destruct (Rltb mmin (q * m)); cbn [nwhere]; auto. rewrite Rmult_comm. auto.
  - rewrite E. cbn [rbind]. exists (map fst os), (map snd os). split; auto. rewrite !map_length. split; auto. split; auto. intros i cm cq Hi. destruct (K i _ Hi) as (out & Eo & Po).
    rewrite (nth_some _ _ _ _ (map_nth_error fst _ _ Eo)), (nth_some _ _ _ _ (map_nth_error snd _ _ Eo)). exact Po.
Qed.
(** log-normal primary with a spline ratio *)
Lemma peak_masses n_q ds rate frac : (4 <= n_q)%nat -> wide_range KLogY n_q 4 (mmin / mmax) 1 ->
  one_per_draw (length ds) rate -> one_per_draw (length ds) frac -> (forall mu sig q, In (mu, sig, q) ds -> 0 < sig /\ log_coefs n_q q) ->
  exists mc qc, calculate_peak_logm1_bspline_q_ppds n_q (Fin mmin) (Fin mmax) (map (fun '(mu, sig, q) => (Fin mu, Fin sig, map Fin q)) ds) (given rate) (given frac)
      = Ok (mc, map Fin ms, qc, map Fin qs) /\ length mc = length ds /\ length qc = length ds /\
    forall i mu sig cq, nth_error ds i = Some (mu, sig, cq) -> exists pm pq J,
      (forall m, mmin <= m <= mmax -> truncnorm_pdf (Fin m) (Fin mu) (Fin sig) (Fin mmin) (Fin mmax) true = Fin (pm m)) /\
      (forall q, mmin / mmax <= q <= 1 -> density_at KLogY (Fin (mmin / mmax), Fin 1) no_opts n_q (map Fin cq) (Fin q) (Fin (pq q))) /\
      cut_joint mmin mmax (fun m2 => mmin <= m2) (fun m q => Fin (pm m * pq q)) J /\
      mass_rate_curves mmin mmax J (total_rate rate frac i) (nth i mc []) (nth i qc []).
Proof.
  intros NQ WQ HR HF HD. unfold calculate_peak_logm1_bspline_q_ppds. cbv zeta. destruct grids as [-> ->]. pose proof q_range as QR.
  set (Qx := flat_map (fun q => map (fun _ : R => q) ms) qs).
  assert (EQx : mesh_q (map Fin ms) (map Fin qs) = map Fin Qx) by (rewrite mesh_q_eq; apply (flat_fin (fun q _ => q))).
  set (o := Opts _ _ _ _ _ _).
  destruct (m1d_log KLogY KLogY o n_q (mmin / mmax) 1 Qx (map Fin qs) eq_refl eq_refl ltac:(repeat split) eq_refl NQ ltac:(split; [lra|discriminate]) WQ) as (mq & EQ & CQ).
  { intros x Hx. apply in_flat_map in Hx as (q & Hq & Hx). apply in_map_iff in Hx as (y & <- & _). apply qs_in; auto. }
  unfold ratio_model. rewrite EQx. rewrite ndiv_fin by lra. rewrite EQ. cbn [rbind]. rewrite <- EQx. clear EQx.
  match goal with |- context [all_draws ?ff (map ?hh ds) _ _] => set (h := hh); set (f := ff) end.
  destruct (all_ok h f (fun d tot out => let '(mu, sig, cq) := d in exists pm pq J,
      (forall m, mmin <= m <= mmax -> truncnorm_pdf (Fin m) (Fin mu) (Fin sig) (Fin mmin) (Fin mmax) true = Fin (pm m)) /\
      (forall q, mmin / mmax <= q <= 1 -> density_at KLogY (Fin (mmin / mmax), Fin 1) no_opts n_q (map Fin cq) (Fin q) (Fin (pq q))) /\
      cut_joint mmin mmax (fun m2 => mmin <= m2) (fun m q => Fin (pm m * pq q)) J /\
      mass_rate_curves mmin mmax J tot (fst out) (snd out)) ds rate frac HR HF) as (os & E & L & K).
  - intros [[mu sig] cq] r q0 Hd. destruct (HD _ _ _ Hd) as (Hs & (Lq & Bq)). destruct (CQ cq Lq Bq) as (pq & Epq & Ppq).
    assert (Ppm : forall m, mmin <= m <= mmax -> truncnorm_pdf (Fin m) (Fin mu) (Fin sig) (Fin mmin) (Fin mmax) true = Fin (ln_f mu sig mmin mmax m)) by (intros; apply lognorm_pdf_in; auto).
    assert (Pos : forall m, mmin <= m <= mmax -> 0 < ln_f mu sig mmin mmax m) by (intros m Hm; rewrite ln_f_tn by lra; apply Rmult_lt_0_compat; [apply Rinv_0_lt_compat; lra|apply tn_f_pos; auto; apply ln_increasing; lra]).
    set (pm := ln_f mu sig mmin mmax) in *.
    unfold f, h. rewrite Epq. cbn [rbind]. unfold Qx. rewrite !map_flat.
    rewrite (flat_ext _ (fun q => map (fun _ => Fin (pq q)) ms) qs) by (intros; rewrite map_map; auto). match goal with |- context [map ?F (mesh_m _ _)] => replace (map F (mesh_m (map Fin ms) (map Fin qs))) with (flat_map (fun _ : R => map F (map Fin ms)) qs) by (rewrite mesh_m_eq, map_flat; auto) end.
    rewrite (flat_ext (fun x => map (fun m => truncnorm_pdf m (Fin mu) (Fin sig) (Fin mmin) (Fin mmax) true) (map Fin ms)) (fun q => map (fun m => Fin (pm m)) ms) qs)
      by (intros; rewrite map_map; apply map_ext_in; intros; apply Ppm, ms_in; auto).
    rewrite (product_flat ms qs (fun q _ => Fin (pq q)) (fun _ m => Fin (pm m))). cbn [rbind]. eexists. split; [reflexivity|].
    set (J := fun m q => if Rleb mmin (q * m) then pm m * pq q else 0). exists pm, pq, J. split; [apply Ppm|]. split; [apply Ppq|]. split.
    + intros m q Hm Hq. unfold J. split; intros H; [rewrite Rleb_t|rewrite Rleb_f]; auto; lra.
    + rewrite mesh_pairs. rewrite (map2_flat _ (fun q m => (Fin m, Fin q)) (fun q m => nmul (Fin (pq q)) (Fin (pm m)))). cbn [fst snd]. rewrite (flat_ext _ (fun q => map (fun m => Fin (J m q)) ms)).
      * apply joint_curves.
        -- intros m q Hm Hq. unfold J. destruct (Rleb mmin (q * m)); [|lra]. left. apply Rmult_lt_0_compat; [apply Pos|apply Ppq]; auto.
        -- unfold J. rewrite Rleb_t by lra. apply Rmult_lt_0_compat; [apply Pos|apply Ppq]; lra.
      * intros q Hq. apply map_ext_in. intros m Hm. apply ms_in in Hm. rewrite !nmul_fin. cbn [nlt]. rewrite (Rltb_f m) by lra. cbn [orb]. unfold J.
        destruct (Rlt_le_dec (m * q) mmin); [rewrite Rltb_t, Rleb_f by lra|rewrite Rltb_f, Rleb_t by lra]; cbn [nwhere]; auto. rewrite Rmult_comm. auto.
  - rewrite E. cbn [rbind]. exists (map fst os), (map snd os). split; auto. rewrite !map_length. split; auto. split; auto. intros i mu sig cq Hi. destruct (K i _ Hi) as (out & Eo & Po).
    rewrite (nth_some _ _ _ _ (map_nth_error fst _ _ Eo)), (nth_some _ _ _ _ (map_nth_error snd _ _ Eo)). exact Po.
Qed.
End Masses.
