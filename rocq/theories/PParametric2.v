(** Pointwise values of the joint models of parametric.py. *)
From Verif Require Export PParametric Spec2.
Open Scope R_scope.

Lemma qlow mmin m1 : 0 < mmin < m1 -> 0 < mmin / m1 < 1.
Proof.
  intros H. split; [apply Rdiv_lt_0_compat; lra|]. apply Rmult_lt_reg_r with m1; [lra|].
  unfold Rdiv. rewrite Rmult_assoc, Rinv_l; lra.
Qed.

(** given m1, the mass ratio is a power law of index beta *)
Lemma pl_ratio_shape_q alpha beta mmin mmax m1 : 0 < mmin < m1 -> m1 <= mmax ->
  proportional_on
    (fun q => powerlaw_primary_ratio_pdf (Fin m1) (Fin q) (Fin alpha) (Fin beta) (Fin mmin) (Fin mmax))
    (fun q => Rpower q beta) (mmin / m1) 1.
Proof.
  intros H K. pose proof (qlow _ _ H) as L.
  exists (plnorm beta (mmin / m1) 1 * (plnorm alpha mmin mmax * Rpower m1 alpha)). split.
  - apply Rmult_lt_0_compat; [apply plnorm_pos; lra|].
    apply Rmult_lt_0_compat; [apply plnorm_pos; lra | apply Rpower_pos].
  - intros q Hq. unfold powerlaw_primary_ratio_pdf. rewrite ndiv_fin by lra.
    rewrite (powerlaw_pdf_in q) by auto. rewrite (powerlaw_pdf_in m1) by lra. rewrite nmul_fin. f_equal; ring.
Qed.

Lemma plpeak_ratio_value (m1 q alpha beta mmin mmax mpp sigpp lam pq p n : R) : 0 < m1 ->
  powerlaw_pdf (Fin q) (Fin beta) (Fin (mmin / m1)) (Fin 1) (Fin 0) = Fin pq ->
  powerlaw_pdf (Fin m1) (Fin alpha) (Fin mmin) (Fin mmax) (Fin 0) = Fin p ->
  truncnorm_pdf (Fin m1) (Fin mpp) (Fin sigpp) (Fin mmin) (Fin mmax) false = Fin n ->
  plpeak_primary_ratio_pdf (Fin m1) (Fin q) (Fin alpha) (Fin beta) (Fin mmin) (Fin mmax) (Fin mpp) (Fin sigpp) (Fin lam) None
  = Fin (pq * ((1 - lam) * p + lam * n)).
Proof.
  intros H1 Hq Hp Hn. unfold plpeak_primary_ratio_pdf, plpeak_primary_pdf. rewrite ndiv_fin by lra.
  rewrite Hq, Hp, Hn. reflexivity.
Qed.

Lemma plpeak_smooth_value (m1 alpha mmin mmax mpp sigpp lam d p n s1 : R) :
  powerlaw_pdf (Fin m1) (Fin alpha) (Fin mmin) (Fin mmax) (Fin 0) = Fin p ->
  truncnorm_pdf (Fin m1) (Fin mpp) (Fin sigpp) (Fin mmin) (Fin mmax) false = Fin n ->
  smooth (Fin d) (Fin m1) (Fin mmin) = Fin s1 ->
  plpeak_primary_pdf (Fin m1) (Fin alpha) (Fin mmin) (Fin mmax) (Fin mpp) (Fin sigpp) (Fin lam) (Some (Fin d))
  = Fin ((1 - lam) * p * s1 + lam * n).
Proof. intros Hp Hn Hs. unfold plpeak_primary_pdf. rewrite Hp, Hn, Hs. reflexivity. Qed.

Lemma plpeak_ratio_smooth_value (m1 q alpha beta mmin mmax mpp sigpp lam d pq p n s1 s2 : R) : 0 < m1 ->
  powerlaw_pdf (Fin q) (Fin beta) (Fin (mmin / m1)) (Fin 1) (Fin 0) = Fin pq ->
  powerlaw_pdf (Fin m1) (Fin alpha) (Fin mmin) (Fin mmax) (Fin 0) = Fin p ->
  truncnorm_pdf (Fin m1) (Fin mpp) (Fin sigpp) (Fin mmin) (Fin mmax) false = Fin n ->
  smooth (Fin d) (Fin m1) (Fin mmin) = Fin s1 ->
  smooth (Fin d) (Fin (q * m1)) (Fin mmin) = Fin s2 ->
  plpeak_primary_ratio_pdf (Fin m1) (Fin q) (Fin alpha) (Fin beta) (Fin mmin) (Fin mmax) (Fin mpp) (Fin sigpp) (Fin lam)
    (Some (Fin d))
  = Fin (pq * s2 * ((1 - lam) * p * s1 + lam * n)).
Proof.
  intros H1 Hq Hp Hn Hs1 Hs2. unfold plpeak_primary_ratio_pdf. rewrite ndiv_fin by lra. rewrite nmul_fin.
  rewrite Hq, Hs2. rewrite (plpeak_smooth_value _ _ _ _ _ _ _ _ p n s1) by auto. reflexivity.
Qed.

Lemma independent_tilt_value (c1 c2 xi1 xi2 sig1 sig2 n1 n2 : R) :
  -1 <= c1 <= 1 -> -1 <= c2 <= 1 -> 0 < sig1 -> 0 < sig2 ->
  truncnorm_pdf (Fin c1) (Fin 1) (Fin sig1) (Fin (-1)) (Fin 1) false = Fin n1 ->
  truncnorm_pdf (Fin c2) (Fin 1) (Fin sig2) (Fin (-1)) (Fin 1) false = Fin n2 ->
  independent_spin_tilt (Fin c1) (Fin c2) (Fin xi1) (Fin xi2) (Fin sig1) (Fin sig2)
  = Fin (((1 - xi1) * (1/2) + xi1 * n1) * ((1 - xi2) * (1/2) + xi2 * n2)).
Proof.
  intros H1 H2 K1 K2 E1 E2. unfold independent_spin_tilt, mixture_isoalign_spin_tilt. rewrite E1, E2.
  unfold ngt. cbn [nlt]. rewrite !Rltb_f by lra. cbn [orb nwhere].
  rewrite !nsub_fin, !nmul_fin, !ndiv_fin, !nadd_fin, nmul_fin by lra. f_equal; field.
Qed.

Lemma default_tilt_value (c1 c2 xi sig n1 n2 : R) : -1 <= c1 <= 1 -> -1 <= c2 <= 1 -> 0 < sig ->
  truncnorm_pdf (Fin c1) (Fin 1) (Fin sig) (Fin (-1)) (Fin 1) false = Fin n1 ->
  truncnorm_pdf (Fin c2) (Fin 1) (Fin sig) (Fin (-1)) (Fin 1) false = Fin n2 ->
  default_spin_tilt (Fin c1) (Fin c2) (Fin xi) (Fin sig) = Fin ((1 - xi) * (1/4) + xi * (n1 * n2)).
Proof.
  intros H1 H2 Hs E1 E2. rewrite default_tilt_in by auto.
  rewrite truncnorm_pdf_in in E1, E2 by (auto; lra). injection E1 as <-. injection E2 as <-. f_equal; field.
Qed.

Lemma default_tilt_out (c1 c2 xi sig : R) : 0 < sig -> c1 < -1 \/ 1 < c1 \/ c2 < -1 \/ 1 < c2 ->
  default_spin_tilt (Fin c1) (Fin c2) (Fin xi) (Fin sig) = Fin 0.
Proof.
  intros Hs H. unfold default_spin_tilt.
  assert (T : forall c, exists t, truncnorm_pdf (Fin c) (Fin 1) (Fin sig) (Fin (-1)) (Fin 1) false = Fin t /\
     exists i, nwhere (ngt (Fin c) (Fin 1) || nlt (Fin c) (Fin (-1))) (Fin 0) (Fin (1/2)) = Fin i /\
     (c < -1 \/ 1 < c -> t = 0 /\ i = 0)).
  { intros c. destruct (Rlt_le_dec c (-1)) as [a|a]; [|destruct (Rlt_le_dec 1 c) as [b|b]].
    - exists 0. split; [apply truncnorm_out; left; cbn; apply Rltb_true; auto|]. exists 0. split; [|auto].
      unfold ngt. cbn [nlt]. rewrite (Rltb_t c) by lra. rewrite orb_true_r. reflexivity.
    - exists 0. split; [apply truncnorm_out; right; cbn; apply Rltb_true; auto|]. exists 0. split; [|auto].
      unfold ngt. cbn [nlt]. rewrite (Rltb_t 1) by lra. reflexivity.
    - eexists. split; [apply truncnorm_pdf_in; lra|]. exists (1/2). split; [|lra].
      unfold ngt. cbn [nlt]. rewrite !Rltb_f by lra. reflexivity. }
  destruct (T c1) as (t1 & -> & i1 & -> & Z1). destruct (T c2) as (t2 & -> & i2 & -> & Z2).
  cbn. f_equal.
  assert (D : (t1 = 0 /\ i1 = 0) \/ (t2 = 0 /\ i2 = 0)) by (destruct H as [H|[H|[H|H]]]; auto).
  destruct D as [[-> ->]|[-> ->]]; ring.
Qed.

Lemma independent_mag_value betaln (x y a1 b1 s1 a2 b2 s2 p1 p2 : R) :
  beta_spin_magnitude betaln (Fin x) (Fin a1) (Fin b1) (Fin s1) = Fin p1 ->
  beta_spin_magnitude betaln (Fin y) (Fin a2) (Fin b2) (Fin s2) = Fin p2 ->
  independent_spin_magnitude_beta_dist betaln (Fin x) (Fin y) (Fin a1) (Fin b1) (Fin a2) (Fin b2) (Fin s1) (Fin s2)
  = Fin (p1 * p2).
Proof.
  unfold independent_spin_magnitude_beta_dist, beta_spin_magnitude. intros -> ->. reflexivity.
Qed.


Lemma beta_spin_value betaln (x a b s l : R) : betaln (Fin a) (Fin b) = Fin l -> 0 < x < s ->
  beta_spin_magnitude betaln (Fin x) (Fin a) (Fin b) (Fin s) = Fin (beta_density a b s (exp l) x).
Proof. intros. unfold beta_spin_magnitude. erewrite betadist_in by eauto. reflexivity. Qed.

Lemma independent_mag_in betaln (x y a1 b1 s1 l1 a2 b2 s2 l2 : R) :
  betaln (Fin a1) (Fin b1) = Fin l1 -> betaln (Fin a2) (Fin b2) = Fin l2 -> 0 < x < s1 -> 0 < y < s2 ->
  independent_spin_magnitude_beta_dist betaln (Fin x) (Fin y) (Fin a1) (Fin b1) (Fin a2) (Fin b2) (Fin s1) (Fin s2)
  = Fin (beta_density a1 b1 s1 (exp l1) x * beta_density a2 b2 s2 (exp l2) y).
Proof. intros. apply independent_mag_value; apply beta_spin_value; auto. Qed.

Lemma iid_mag_in betaln (x y a b s l : R) :
  betaln (Fin a) (Fin b) = Fin l -> 0 < x < s -> 0 < y < s ->
  iid_spin_magnitude betaln (Fin x) (Fin y) (Fin a) (Fin b) (Fin s)
  = Fin (beta_density a b s (exp l) x * beta_density a b s (exp l) y).
Proof.
  intros. unfold iid_spin_magnitude. rewrite !(betadist_in betaln _ a b s l) by auto. reflexivity.
Qed.

(** scaling an improper integral from the unit interval to (0,s) *)
Lemma gen_scale (f : R -> R) (s l : R) : 0 < s ->
  is_RInt_gen f (at_right 0) (at_left 1) l ->
  is_RInt_gen (fun x => / s * f (x / s)) (at_right 0) (at_left s) l.
Proof.
  intros Hs H P HP. specialize (H P HP). destruct H as [Q R0 HQ HR H].
  refine (Filter_prod _ _ _ (fun x => Q (x / s)) (fun x => R0 (x / s)) _ _ _).
  - destruct HQ as [e He]. assert (0 < e * s) as Hes by (apply Rmult_lt_0_compat; [apply cond_pos|auto]).
    exists (mkposreal _ Hes). intros y Hy Hy0. apply He.
    + change (Rabs (y / s - 0) < e). change (Rabs (y - 0) < e * s) in Hy.
      replace (y / s - 0) with ((y - 0) / s) by (field; lra). unfold Rdiv. rewrite Rabs_mult, (Rabs_pos_eq (/ s)).
      * apply Rmult_lt_reg_r with s; auto. rewrite Rmult_assoc, Rinv_l by lra. rewrite Rmult_1_r. exact Hy.
      * left. apply Rinv_0_lt_compat; auto.
    + apply Rdiv_lt_0_compat; auto.
  - destruct HR as [e He]. assert (0 < e * s) as Hes by (apply Rmult_lt_0_compat; [apply cond_pos|auto]).
    exists (mkposreal _ Hes). intros y Hy Hy0. apply He.
    + change (Rabs (y / s - 1) < e). change (Rabs (y - s) < e * s) in Hy.
      replace (y / s - 1) with ((y - s) / s) by (field; lra). unfold Rdiv. rewrite Rabs_mult, (Rabs_pos_eq (/ s)).
      * apply Rmult_lt_reg_r with s; auto. rewrite Rmult_assoc, Rinv_l by lra. rewrite Rmult_1_r. exact Hy.
      * left. apply Rinv_0_lt_compat; auto.
    + apply Rmult_lt_reg_r with s; auto. unfold Rdiv. rewrite Rmult_assoc, Rinv_l by lra. lra.
  - intros u v Hu Hv. destruct (H _ _ Hu Hv) as (I & HI & PI). exists I. split; auto.
    cbn [fst snd] in *.
    eapply is_RInt_ext; [|apply (is_RInt_comp_lin f (/ s) 0 u v I)].
    + intros. cbn. unfold Rdiv. rewrite Rplus_0_r, (Rmult_comm (/ s) x). reflexivity.
    + rewrite !Rplus_0_r, !(Rmult_comm (/ s)). exact HI.
Qed.

Lemma open_pair s : 0 < s ->
  filter_prod (at_right 0) (at_left s) (fun ab => 0 < fst ab /\ fst ab < snd ab /\ snd ab < s).
Proof.
  intros Hs. assert (0 < s / 2) as H2 by lra.
  refine (Filter_prod _ _ _ (fun x => 0 < x < s / 2) (fun x => s / 2 < x < s) _ _ _).
  - exists (mkposreal _ H2). intros y Hy Hy0. change (Rabs (y - 0) < s / 2) in Hy.
    rewrite Rminus_0_r in Hy. apply Rabs_lt_between in Hy. lra.
  - exists (mkposreal _ H2). intros y Hy Hy0. change (Rabs (y - s) < s / 2) in Hy.
    apply Rabs_lt_between in Hy. lra.
  - cbn. intros. lra.
Qed.

Lemma beta_density_scaled a b s B x : 0 < x < s -> 0 < B ->
  beta_density a b s B x = / s * (/ B * (Rpower (x / s) (a - 1) * Rpower (1 - x / s) (b - 1))).
Proof.
  intros Hx HB. unfold beta_density. replace (1 - x / s) with ((s - x) / s) by (field; lra).
  unfold Rdiv. rewrite Rinv_mult.
  rewrite <- !(Rpower_mult_distr) by (try apply Rinv_0_lt_compat; lra).
  replace (Rpower s (a + b - 1)) with (Rpower s (a - 1) * (Rpower s (b - 1) * s)).
  - assert (E : forall c, Rpower (/ s) c = / Rpower s c).
    { intros c. rewrite <- Rpower_Ropp. unfold Rpower. rewrite ln_Rinv by lra. f_equal. ring. }
    rewrite !E. pose proof (Rpower_pos s (a - 1)). pose proof (Rpower_pos s (b - 1)).
    field. lra.
  - rewrite <- (Rpower_1 s) at 3 by lra. rewrite <- !Rpower_plus. f_equal. ring.
Qed.

Lemma betadist_density_open betaln a b s l : 0 < s ->
  betaln (Fin a) (Fin b) = Fin l -> beta_integral_open a b (exp l) ->
  density_on_open (fun x => betadist betaln (Fin x) (Fin a) (Fin b) (Fin s) (Fin 0)) 0 s.
Proof.
  intros Hs Hl [HB Pos]. exists (beta_density a b s (exp l)). split.
  - intros x Hx. split; [rewrite (betadist_in betaln x a b s l) by auto; reflexivity|].
    unfold beta_density. apply Rmult_le_pos; [apply Rmult_le_pos; left; apply Rpower_pos|].
    left. apply Rinv_0_lt_compat, Rmult_lt_0_compat; [apply Rpower_pos|auto].
  - set (f := fun t => Rpower t (a - 1) * Rpower (1 - t) (b - 1)) in HB.
    apply (is_RInt_gen_scal f (/ exp l)) in HB.
    apply (gen_scale _ s) in HB; auto.
    replace 1 with (scal (/ exp l) (exp l)) by (cbn; unfold mult; cbn; apply Rinv_l; lra).
    eapply is_RInt_gen_ext; [|exact HB].
    eapply filter_imp; [|apply (open_pair s Hs)].
    intros [u v] (H1 & H2 & H3) x Hx. cbn [fst snd] in *.
    rewrite Rmin_left, Rmax_right in Hx by lra. rewrite beta_density_scaled by (auto; lra).
    unfold f, scal; cbn. unfold mult; cbn. reflexivity.
Qed.

Lemma beta_integral_open_half : beta_integral_open (1/2) 1 2.
Proof.
  split; [|lra]. intros P [e He].
  assert (0 < Rmin (1/4) (e * e / 16)) as P1.
  { pose proof (cond_pos e). apply Rmin_glb_lt; nra. }
  assert (0 < Rmin (1/2) (e / 4)) as P2.
  { pose proof (cond_pos e). apply Rmin_glb_lt; lra. }
  refine (Filter_prod _ _ _ (fun x => 0 < x < Rmin (1/4) (e * e / 16)) (fun x => 1 - Rmin (1/2) (e / 4) < x < 1) _ _ _).
  - exists (mkposreal _ P1). intros y Hy Hy0. cbn [pos] in Hy. change (Rabs (y - 0) < Rmin (1/4) (e * e / 16)) in Hy.
    rewrite Rminus_0_r in Hy. apply Rabs_lt_between in Hy. lra.
  - exists (mkposreal _ P2). intros y Hy Hy0. change (Rabs (y - 1) < Rmin (1/2) (e / 4)) in Hy.
    apply Rabs_lt_between in Hy. lra.
  - intros u v Hu Hv. exists (2 * sqrt v - 2 * sqrt u). split.
    + cbn [fst snd].
      assert (Huv : u <= v).
      { pose proof (Rmin_l (1/4) (e * e / 16)). pose proof (Rmin_l (1/2) (e / 4)). lra. }
      apply FTC_eq with (F := fun t => 2 * Rpower t (1/2)); auto.
      * intros x Hx. replace (1 - 1) with 0 by ring. rewrite Rpower_O by lra.
        unfold Rpower. auto_derive; [lra|]. unfold Rpower.
        replace ((1 / 2 - 1) * ln x) with (1 / 2 * ln x + - ln x) by field.
        rewrite exp_plus, exp_Ropp, exp_ln by lra. field. lra.
      * intros x Hx. apply ex_derive_cont. unfold Rpower. auto_derive; lra.
      * rewrite <- !Rpower_sqrt by lra. unfold Rdiv. rewrite !Rmult_1_l. ring.
    + apply He. change (Rabs (2 * sqrt v - 2 * sqrt u - 2) < e).
      pose proof (Rmin_r (1/4) (e * e / 16)). pose proof (Rmin_r (1/2) (e / 4)). pose proof (Rmin_l (1/2) (e / 4)).
      pose proof (cond_pos e).
      assert (sqrt u < e / 4).
      { rewrite <- (sqrt_Rsqr (e / 4)) by lra. apply sqrt_lt_1_alt. unfold Rsqr. lra. }
      assert (0 <= sqrt u) by apply sqrt_pos.
      assert (v <= sqrt v).
      { rewrite <- (sqrt_Rsqr v) at 1 by lra. apply sqrt_le_1_alt. unfold Rsqr. nra. }
      assert (sqrt v <= 1) by (rewrite <- sqrt_1; apply sqrt_le_1_alt; lra).
      apply Rabs_lt_between. lra.
Qed.

Lemma redshift_grid dVcdz p0 pe i0 inj :
  let a := Rmax (fold_left Rmin pe p0) (fold_left Rmin inj i0) in
  let b := Rmin (fold_left Rmax pe p0) (fold_left Rmax inj i0) in
  let m := redshift_model_init dVcdz (Fin p0) (map Fin pe) (Fin i0) (map Fin inj) in
  zm_min m = Fin a /\ zm_max m = Fin b /\ zm_zs m = nlinspace (Fin a) (Fin b) 1000 /\ zm_dV m = map dVcdz (zm_zs m).
Proof.
  cbv zeta. rewrite redshift_init_fin. auto.
Qed.
