(** Proofs about [MParametric]. *)
From Verif Require Export PDistributions ArrFacts MParametric.
Open Scope R_scope.

Lemma betadist_density betaln a b s lnB : 0 < s -> 1 < a -> 1 < b ->
  betaln (Fin a) (Fin b) = Fin lnB -> beta_integral a b (exp lnB) ->
  density_on (fun x => betadist betaln (Fin x) (Fin a) (Fin b) (Fin s) (Fin 0)) 0 s.
Proof.
  intros Hs Ha Hb HB [Hint HBp].
  exists (fun x => if Rltb 0 x && Rltb x s then Rpower x (a - 1) * Rpower (s - x) (b - 1) / (Rpower s (a + b - 1) * exp lnB) else 0).
  split.
  - intros x Hx. destruct (Rlt_le_dec 0 x) as [H0|H0].
    + destruct (Rlt_le_dec x s) as [H1|H1].
      * rewrite !Rltb_t by auto. cbn [andb]. split; [apply betadist_in; auto|].
        pose proof (Rpower_pos x (a-1)). pose proof (Rpower_pos (s-x) (b-1)). pose proof (Rpower_pos s (a+b-1)).
        apply Rdiv_le_0_compat; nra.
      * replace x with s by lra. rewrite Rltb_t by lra. rewrite Rltb_f by lra. cbn [andb].
        split; [eapply betadist_right; eauto | lra].
    + replace x with 0 by lra. rewrite Rltb_f by lra. cbn [andb].
      split; [eapply betadist_left; eauto | lra].
  - eapply is_RInt_ext_open; [lra| |apply (beta_scaled_integral a b s (exp lnB)); auto].
    intros x Hx. cbn beta. rewrite !Rltb_t by lra. reflexivity.
Qed.

(** ** joint power law *)
Lemma pl_ratio_support m1 q alpha beta mmin mmax : 0 < mmin < mmax -> 0 < m1 ->
  (m1 < mmin \/ mmax < m1 \/ 1 < q \/ q * m1 < mmin) ->
  powerlaw_primary_ratio_pdf (Fin m1) (Fin q) (Fin alpha) (Fin beta) (Fin mmin) (Fin mmax) = Fin 0.
Proof.
  intros Hm H1 H. unfold powerlaw_primary_ratio_pdf.
  rewrite ndiv_fin by lra.
  assert (Hq0 : q * m1 < mmin -> powerlaw_pdf (Fin q) (Fin beta) (Fin (mmin / m1)) (Fin 1) (Fin 0) = Fin 0).
  { intros Hq. apply powerlaw_pdf_out. left. cbn. apply Rltb_true.
    apply Rmult_lt_reg_r with m1; auto. unfold Rdiv. rewrite Rmult_assoc, Rinv_l; lra. }
  assert (Hq1 : 1 < q -> powerlaw_pdf (Fin q) (Fin beta) (Fin (mmin / m1)) (Fin 1) (Fin 0) = Fin 0).
  { intros Hq. apply powerlaw_pdf_out. right. cbn. apply Rltb_true; auto. }
  assert (Hpm : forall v, powerlaw_pdf (Fin q) (Fin beta) (Fin (mmin / m1)) (Fin 1) (Fin 0) = Fin v ->
     powerlaw_pdf (Fin m1) (Fin alpha) (Fin mmin) (Fin mmax) (Fin 0) = Fin 0 ->
     (powerlaw_pdf (Fin q) (Fin beta) (Fin (mmin / m1)) (Fin 1) (Fin 0) * powerlaw_pdf (Fin m1) (Fin alpha) (Fin mmin) (Fin mmax) (Fin 0))%num = Fin 0).
  { intros v -> ->. cbn. f_equal. ring. }
  destruct (Rlt_le_dec m1 mmin) as [Ha|Ha].
  { apply (Hpm 0).
    - destruct (Rlt_le_dec 1 q); [apply Hq1; auto|]. apply Hq0. nra.
    - apply powerlaw_pdf_out. left. cbn. apply Rltb_true; auto. }
  destruct (Rlt_le_dec mmax m1) as [Hb|Hb].
  { assert (exists v, powerlaw_pdf (Fin q) (Fin beta) (Fin (mmin / m1)) (Fin 1) (Fin 0) = Fin v) as [v Hv].
    { destruct (Rlt_le_dec 1 q); [eexists; apply Hq1; auto|].
      destruct (Rlt_le_dec (q * m1) mmin); [eexists; apply Hq0; auto|].
      eexists. apply powerlaw_pdf_in.
      - split; [apply Rdiv_lt_0_compat; lra|]. apply Rmult_lt_reg_r with m1; auto.
        unfold Rdiv. rewrite Rmult_assoc, Rinv_l; lra.
      - split; auto. apply Rmult_le_reg_r with m1; auto. unfold Rdiv. rewrite Rmult_assoc, Rinv_l; lra. }
    apply (Hpm v Hv). apply powerlaw_pdf_out. right. cbn. apply Rltb_true; auto. }
  rewrite (powerlaw_pdf_in m1) by (auto; lra).
  destruct H as [H|[H|[H|H]]]; try lra.
  - rewrite Hq1 by auto. cbn. f_equal; ring.
  - rewrite Hq0 by auto. cbn. f_equal; ring.
Qed.

Lemma pl_ratio_joint alpha beta mmin mmax : 0 < mmin < mmax ->
  joint_density_on
    (fun m1 q => powerlaw_primary_ratio_pdf (Fin m1) (Fin q) (Fin alpha) (Fin beta) (Fin mmin) (Fin mmax))
    mmin mmax (fun m1 => mmin / m1) (fun _ => 1)
    (fun m1 => plnorm alpha mmin mmax * Rpower m1 alpha).
Proof.
  intros Hm.
  exists (fun m1 q => plnorm beta (mmin / m1) 1 * Rpower q beta * (plnorm alpha mmin mmax * Rpower m1 alpha)).
  assert (Hlow : forall m1, mmin < m1 <= mmax -> 0 < mmin / m1 < 1).
  { intros m1 H. split; [apply Rdiv_lt_0_compat; lra|]. apply Rmult_lt_reg_r with m1; [lra|].
    unfold Rdiv. rewrite Rmult_assoc, Rinv_l; lra. }
  repeat split.
  - unfold powerlaw_primary_ratio_pdf. rewrite ndiv_fin by lra.
    rewrite !powerlaw_pdf_in; auto; lra.
  - pose proof (plnorm_pos beta (mmin / x) 1 (Hlow x H)). pose proof (plnorm_pos alpha mmin mmax Hm).
    pose proof (Rpower_pos y beta). pose proof (Rpower_pos x alpha).
    apply Rmult_le_pos; apply Rmult_le_pos; lra.
  - intros m1 H.
    pose proof (is_RInt_scalR _ (mmin / m1) 1 (plnorm alpha mmin mmax * Rpower m1 alpha) 1
                  (plnorm_integral beta (mmin / m1) 1 (Hlow m1 H))) as K.
    rewrite Rmult_1_r in K. eapply is_RInt_ext; [|exact K]. intros; req; ring.
  - apply plnorm_integral; auto.
Qed.

(** ** power law + peak *)
Lemma plpeak_in m1 alpha mmin mmax mpp sigpp lam : 0 < mmin < mmax -> 0 < sigpp -> mmin <= m1 <= mmax ->
  plpeak_primary_pdf (Fin m1) (Fin alpha) (Fin mmin) (Fin mmax) (Fin mpp) (Fin sigpp) (Fin lam) None
  = Fin ((1 - lam) * (plnorm alpha mmin mmax * Rpower m1 alpha) + lam * tn_f mpp sigpp mmin mmax m1).
Proof.
  intros Hm Hs H1. unfold plpeak_primary_pdf.
  rewrite powerlaw_pdf_in by auto. rewrite truncnorm_pdf_in by (auto; lra). reflexivity.
Qed.

Lemma plpeak_density alpha mmin mmax mpp sigpp lam : 0 < mmin < mmax -> 0 < sigpp -> 0 <= lam <= 1 ->
  density_on (fun m1 => plpeak_primary_pdf (Fin m1) (Fin alpha) (Fin mmin) (Fin mmax) (Fin mpp) (Fin sigpp) (Fin lam) None)
    mmin mmax.
Proof.
  intros Hm Hs Hl.
  exists (fun m1 => (1 - lam) * (plnorm alpha mmin mmax * Rpower m1 alpha) + lam * tn_f mpp sigpp mmin mmax m1).
  split.
  - intros m1 H1. split; [apply plpeak_in; auto|].
    pose proof (plnorm_pos alpha mmin mmax Hm). pose proof (Rpower_pos m1 alpha).
    pose proof (tn_f_pos mpp sigpp mmin mmax m1 Hs (proj2 Hm)).
    assert (0 <= plnorm alpha mmin mmax * Rpower m1 alpha) by (apply Rmult_le_pos; lra). nra.
  - eapply is_RInt_val.
    + apply is_RInt_plusR; apply is_RInt_scalR; [apply plnorm_integral; auto | apply tn_integral; lra].
    + ring.
Qed.

Lemma plpeak_out m1 alpha mmin mmax mpp sigpp lam : m1 < mmin \/ mmax < m1 ->
  plpeak_primary_pdf (Fin m1) alpha (Fin mmin) (Fin mmax) mpp sigpp (Fin lam) None = Fin 0.
Proof.
  intros H. unfold plpeak_primary_pdf.
  assert (K : nlt (Fin m1) (Fin mmin) = true \/ nlt (Fin mmax) (Fin m1) = true).
  { destruct H; [left|right]; cbn; apply Rltb_true; auto. }
  rewrite powerlaw_pdf_out by auto. rewrite truncnorm_out by auto. cbn. f_equal; ring.
Qed.

Lemma plpeak_ratio_support m1 q alpha beta mmin mmax mpp sigpp lam : 0 < mmin < mmax -> 0 < sigpp -> 0 < m1 ->
  (m1 < mmin \/ mmax < m1 \/ 1 < q \/ q * m1 < mmin) ->
  plpeak_primary_ratio_pdf (Fin m1) (Fin q) (Fin alpha) (Fin beta) (Fin mmin) (Fin mmax) (Fin mpp) (Fin sigpp) (Fin lam) None = Fin 0.
Proof.
  intros Hm Hs H1 H. unfold plpeak_primary_ratio_pdf.
  destruct (Rlt_le_dec m1 mmin) as [Ha|Ha].
  - rewrite plpeak_out by auto. rewrite powerlaw_pdf_out; [cbn; f_equal; ring|].
    rewrite ndiv_fin by lra. cbn.
    assert (1 < mmin / m1).
    { apply Rmult_lt_reg_r with m1; auto. unfold Rdiv. rewrite Rmult_assoc, Rinv_l; lra. }
    destruct (Rlt_le_dec 1 q); [right|left]; apply Rltb_true; lra.
  - assert (Hlow : mmin < m1 -> 0 < mmin / m1 < 1).
    { intros. split; [apply Rdiv_lt_0_compat; lra|]. apply Rmult_lt_reg_r with m1; [lra|].
      unfold Rdiv. rewrite Rmult_assoc, Rinv_l; lra. }
    assert (Hout : 1 < q \/ q * m1 < mmin ->
      powerlaw_pdf (Fin q) (Fin beta) (Fin mmin / Fin m1)%num (Fin 1) (Fin 0) = Fin 0).
    { intros Hq. rewrite ndiv_fin by lra. apply powerlaw_pdf_out. cbn.
      destruct Hq; [right|left]; apply Rltb_true; auto.
      apply Rmult_lt_reg_r with m1; [lra|]. unfold Rdiv. rewrite Rmult_assoc, Rinv_l; lra. }
    destruct (Rlt_le_dec mmax m1) as [Hb|Hb].
    + rewrite plpeak_out by auto.
      assert (exists v, powerlaw_pdf (Fin q) (Fin beta) (Fin mmin / Fin m1)%num (Fin 1) (Fin 0) = Fin v) as [v ->].
      { destruct (Rlt_le_dec 1 q); [eexists; apply Hout; auto|].
        destruct (Rlt_le_dec (q * m1) mmin); [eexists; apply Hout; auto|].
        eexists. rewrite ndiv_fin by lra. apply powerlaw_pdf_in; [apply Hlow; lra|].
        split; auto. apply Rmult_le_reg_r with m1; [lra|]. unfold Rdiv. rewrite Rmult_assoc, Rinv_l; lra. }
      cbn. f_equal; ring.
    + rewrite plpeak_in by (auto; lra). rewrite Hout by (destruct H as [|[|[|]]]; auto; lra).
      cbn. f_equal; ring.
Qed.

Lemma plpeak_ratio_joint alpha beta mmin mmax mpp sigpp lam : 0 < mmin < mmax -> 0 < sigpp -> 0 <= lam <= 1 ->
  exists g,
  joint_density_on
    (fun m1 q => plpeak_primary_ratio_pdf (Fin m1) (Fin q) (Fin alpha) (Fin beta) (Fin mmin) (Fin mmax) (Fin mpp) (Fin sigpp) (Fin lam) None)
    mmin mmax (fun m1 => mmin / m1) (fun _ => 1) g /\
  (forall m1, mmin <= m1 <= mmax ->
     plpeak_primary_pdf (Fin m1) (Fin alpha) (Fin mmin) (Fin mmax) (Fin mpp) (Fin sigpp) (Fin lam) None = Fin (g m1)).
Proof.
  intros Hm Hs Hl.
  set (g := fun m1 => (1 - lam) * (plnorm alpha mmin mmax * Rpower m1 alpha) + lam * tn_f mpp sigpp mmin mmax m1).
  exists g. split; [|intros; apply plpeak_in; auto].
  exists (fun m1 q => plnorm beta (mmin / m1) 1 * Rpower q beta * g m1).
  assert (Hlow : forall m1, mmin < m1 <= mmax -> 0 < mmin / m1 < 1).
  { intros m1 H. split; [apply Rdiv_lt_0_compat; lra|]. apply Rmult_lt_reg_r with m1; [lra|].
    unfold Rdiv. rewrite Rmult_assoc, Rinv_l; lra. }
  repeat split.
  - unfold plpeak_primary_ratio_pdf. rewrite plpeak_in by (auto; lra). rewrite ndiv_fin by lra.
    rewrite powerlaw_pdf_in; auto.
  - pose proof (plnorm_pos beta (mmin / x) 1 (Hlow x H)). pose proof (plnorm_pos alpha mmin mmax Hm).
    pose proof (Rpower_pos y beta). pose proof (Rpower_pos x alpha).
    pose proof (tn_f_pos mpp sigpp mmin mmax x Hs (proj2 Hm)).
    assert (0 <= g x).
    { unfold g. assert (0 <= plnorm alpha mmin mmax * Rpower x alpha) by (apply Rmult_le_pos; lra). nra. }
    apply Rmult_le_pos; auto. apply Rmult_le_pos; lra.
  - intros m1 H.
    pose proof (is_RInt_scalR _ (mmin / m1) 1 (g m1) 1
                  (plnorm_integral beta (mmin / m1) 1 (Hlow m1 H))) as K.
    rewrite Rmult_1_r in K. eapply is_RInt_ext; [|exact K]. intros; req; ring.
  - unfold g. eapply is_RInt_val.
    + apply is_RInt_plusR; apply is_RInt_scalR; [apply plnorm_integral; auto | apply tn_integral; lra].
    + ring.
Qed.

(** ** tilts *)
Definition tilt_f (xi sig ct : R) : R := (1 - xi) / 2 + xi * tn_f 1 sig (-1) 1 ct.

Lemma tilt_in ct xi sig : 0 < sig -> -1 <= ct <= 1 ->
  mixture_isoalign_spin_tilt (Fin ct) (Fin xi) (Fin sig) = Fin (tilt_f xi sig ct).
Proof.
  intros Hs Hc. unfold mixture_isoalign_spin_tilt, ngt. cbn [nlt]. rewrite !Rltb_f by lra. cbn [orb nwhere].
  rewrite truncnorm_pdf_in by (auto; lra). rewrite nsub_fin, !nmul_fin, ndiv_fin, nadd_fin by lra.
  unfold tilt_f. f_equal. f_equal. rewrite Rmult_1_l. reflexivity.
Qed.
Lemma tilt_f_nonneg xi sig ct : 0 <= xi <= 1 -> 0 < sig -> 0 <= tilt_f xi sig ct.
Proof.
  intros Hx Hs. unfold tilt_f. pose proof (tn_f_pos 1 sig (-1) 1 ct Hs). nra.
Qed.
Lemma tilt_integral xi sig : 0 < sig -> is_RInt (tilt_f xi sig) (-1) 1 1.
Proof.
  intros Hs. unfold tilt_f. eapply is_RInt_val.
  - apply is_RInt_plusR; [apply is_RInt_constR | apply is_RInt_scalR, tn_integral; lra].
  - field.
Qed.
Lemma tilt_density xi sig : 0 <= xi <= 1 -> 0 < sig ->
  density_on (fun ct => mixture_isoalign_spin_tilt (Fin ct) (Fin xi) (Fin sig)) (-1) 1.
Proof.
  intros Hx Hs. exists (tilt_f xi sig). split; [|apply tilt_integral; auto].
  intros ct Hc. split; [apply tilt_in; auto | apply tilt_f_nonneg; auto].
Qed.
Lemma tilt_out ct xi sig : ct < -1 \/ 1 < ct ->
  mixture_isoalign_spin_tilt (Fin ct) (Fin xi) (Fin sig) = Fin 0.
Proof.
  intros H. unfold mixture_isoalign_spin_tilt.
  assert (K : nlt (Fin ct) (Fin (-1)) = true \/ nlt (Fin 1) (Fin ct) = true).
  { destruct H; [left|right]; cbn; apply Rltb_true; auto. }
  rewrite truncnorm_out by auto. unfold ngt.
  replace (nlt (Fin 1) (Fin ct) || nlt (Fin ct) (Fin (-1)))%bool with true
    by (destruct K as [->| ->]; rewrite ?orb_true_r; auto).
  cbn [nwhere]. rewrite nsub_fin, !nmul_fin, ndiv_fin, nadd_fin by lra. f_equal. field.
Qed.

Lemma prod_joint_density (p1 p2 : R -> num) a b c d f1 f2 : a < b ->
  (forall x, a <= x <= b -> p1 x = Fin (f1 x) /\ 0 <= f1 x) -> is_RInt f1 a b 1 ->
  (forall x, c <= x <= d -> p2 x = Fin (f2 x) /\ 0 <= f2 x) -> is_RInt f2 c d 1 ->
  joint_density_on (fun x y => (p1 x * p2 y)%num) a b (fun _ => c) (fun _ => d) f1.
Proof.
  intros Hab H1 I1 H2 I2. exists (fun x y => f1 x * f2 y). repeat split.
  - destruct (H1 x) as [-> _]; [lra|]. destruct (H2 y) as [-> _]; [lra|]. reflexivity.
  - destruct (H1 x) as [_ ?]; [lra|]. destruct (H2 y) as [_ ?]; [lra|]. apply Rmult_le_pos; auto.
  - intros x Hx. eapply is_RInt_val; [apply is_RInt_scalR; exact I2 | ring].
  - auto.
Qed.

Lemma density_prod (p1 p2 : R -> num) a b c d : a < b ->
  density_on p1 a b -> density_on p2 c d ->
  exists g, joint_density_on (fun x y => (p1 x * p2 y)%num) a b (fun _ => c) (fun _ => d) g.
Proof.
  intros Hab (f1 & H1 & I1) (f2 & H2 & I2). exists f1. eapply prod_joint_density; eauto.
Qed.

Lemma default_tilt_in c1 c2 xi sig : 0 < sig -> -1 <= c1 <= 1 -> -1 <= c2 <= 1 ->
  default_spin_tilt (Fin c1) (Fin c2) (Fin xi) (Fin sig)
  = Fin ((1 - xi) * (1/2) * (1/2) + xi * tn_f 1 sig (-1) 1 c1 * tn_f 1 sig (-1) 1 c2).
Proof.
  intros Hs H1 H2. unfold default_spin_tilt, ngt. cbn [nlt]. rewrite !Rltb_f by lra. cbn [orb nwhere].
  rewrite !truncnorm_pdf_in by (auto; lra). reflexivity.
Qed.

Lemma default_tilt_joint xi sig : 0 <= xi <= 1 -> 0 < sig ->
  joint_density_on (fun c1 c2 => default_spin_tilt (Fin c1) (Fin c2) (Fin xi) (Fin sig))
    (-1) 1 (fun _ => -1) (fun _ => 1) (tilt_f xi sig).
Proof.
  intros Hx Hs. exists (fun c1 c2 => (1 - xi) * (1/2) * (1/2) + xi * tn_f 1 sig (-1) 1 c1 * tn_f 1 sig (-1) 1 c2).
  repeat split.
  - apply default_tilt_in; auto; lra.
  - assert (0 < tn_f 1 sig (-1) 1 x) by (apply tn_f_pos; auto; lra).
    assert (0 < tn_f 1 sig (-1) 1 y) by (apply tn_f_pos; auto; lra).
    assert (0 <= xi * tn_f 1 sig (-1) 1 x) by (apply Rmult_le_pos; lra). nra.
  - intros x H. eapply is_RInt_val.
    + apply is_RInt_plusR; [apply is_RInt_constR | apply is_RInt_scalR, tn_integral; lra].
    + unfold tilt_f. field.
  - apply tilt_integral; auto.
Qed.

(** ** redshift model *)
Lemma redshift_prob_fin z v lamb : -1 < z -> redshift_prob (Fin z) (Fin v) (Fin lamb) = Fin (v * Rpower (1 + z) (lamb - 1)).
Proof. intros H. unfold redshift_prob. rewrite nadd_fin, nsub_fin, npow_fin by lra. reflexivity. Qed.

Section Redshift.
Variables (dVcdz : num -> num) (v : R -> R) (a b lamb : R) (m : zmodel).
Hypothesis Hab : -1 < a < b.
Hypothesis Hm : m = {| zm_min := Fin a; zm_max := Fin b; zm_zs := nlinspace (Fin a) (Fin b) 1000;
                       zm_dV := map dVcdz (nlinspace (Fin a) (Fin b) 1000) |}.
Hypothesis HV : forall z, a <= z <= b -> dVcdz (Fin z) = Fin (v z).
Hypothesis Hv : forall z, a <= z <= b -> 0 <= v z.
Hypothesis Hv' : forall z, a < z <= b -> 0 < v z.

Let grid := rlinspace a b 1000.
Let raw := map (fun z => v z * Rpower (1 + z) (lamb - 1)) grid.

Lemma zgrid_eq : zm_zs m = map Fin grid.
Proof. rewrite Hm. cbn [zm_zs]. apply nlinspace_fin. lia. Qed.

Lemma redshift_norm_fin : redshift_normalization m (Fin lamb) = Fin (trapezoid grid raw).
Proof.
  unfold redshift_normalization. rewrite <- ntrapz_fin. rewrite zgrid_eq.
  f_equal. rewrite Hm. cbn [zm_dV]. rewrite nlinspace_fin by lia.
  fold grid. unfold raw. rewrite !map_map.
  assert (forall z, In z grid -> a <= z <= b) by (intros; eapply rlinspace_range; eauto; lra).
  clear - H Hab HV. induction grid as [|z l IH]; cbn [map map2]; auto.
  rewrite IH by (intros; apply H; right; auto).
  assert (a <= z <= b) by (apply H; left; auto).
  rewrite HV by auto. rewrite redshift_prob_fin by lra. reflexivity.
Qed.

Lemma redshift_norm_pos : 0 < trapezoid grid raw.
Proof.
  apply trapezoid_pos.
  - apply rlinspace_increasing; lra.
  - unfold grid. rewrite rlinspace_length. apply (Nat.leb_le 2 1000). reflexivity.
  - unfold raw. rewrite map_length. auto.
  - unfold raw. intros y Hy. apply in_map_iff in Hy. destruct Hy as (z & <- & Hz).
    apply rlinspace_range in Hz; [|lra]. apply Rmult_le_pos; [apply Hv; auto | left; apply Rpower_pos].
  - unfold raw, grid, rlinspace. intros y Hy.
    assert (E : forall (A B : Type) (f : A -> B) l, tl (map f l) = map f (tl l)) by (intros A B f [|]; auto).
    rewrite !E in Hy. replace (tl (seq 0 1000)) with (seq 1 999) in Hy by reflexivity.
    rewrite map_map in Hy. apply in_map_iff in Hy. destruct Hy as (i & <- & Hi). apply in_seq in Hi.
    assert (Hn : 0 < INR (1000 - 1)) by (apply lt_0_INR; apply (Nat.ltb_lt 0 999); reflexivity).
    assert (Hi1 : 1 <= INR i) by (change 1 with (INR 1); apply le_INR; lia).
    assert (Hi2 : INR i <= INR (1000 - 1)) by (apply le_INR; change (1000 - 1)%nat with 999%nat; lia).
    assert (0 < (b - a) / INR (1000 - 1)) by (apply Rdiv_lt_0_compat; lra).
    apply Rmult_lt_0_compat; [apply Hv'|apply Rpower_pos].
    replace b with (a + INR (1000 - 1) * ((b - a) / INR (1000 - 1))) at 3 by (field; lra).
    split; [nra|]. apply Rplus_le_compat_l. apply Rmult_le_compat_r; lra.
Qed.

Lemma redshift_normalised :
  ntrapz (map (fun z => redshift_call m z (dVcdz z) (Fin lamb)) (zm_zs m)) (zm_zs m) = Fin 1.
Proof.
  pose proof redshift_norm_pos as Hp.
  assert (E : map (fun z => redshift_call m z (dVcdz z) (Fin lamb)) (zm_zs m)
              = map Fin (map (fun y => y / trapezoid grid raw) raw)).
  { rewrite zgrid_eq. unfold raw at 2. rewrite !map_map. apply map_ext_in. intros z Hz.
    apply rlinspace_range in Hz; [|lra].
    unfold redshift_call. rewrite redshift_norm_fin, HV by auto.
    rewrite Hm. cbn [zm_max nle]. rewrite Rleb_t by lra. cbn [nwhere].
    rewrite redshift_prob_fin by lra. rewrite ndiv_fin by lra. reflexivity. }
  rewrite E, zgrid_eq, ntrapz_fin, trapezoid_div. f_equal. field. lra.
Qed.

Lemma redshift_log_call z dv : -1 < z <= b -> 0 < dv ->
  exists p, redshift_call m (Fin z) (Fin dv) (Fin lamb) = Fin p /\ 0 < p /\
            redshift_log_prob m (Fin z) (Fin dv) (Fin lamb) = Fin (ln p).
Proof.
  intros Hz Hd. pose proof redshift_norm_pos as Hp.
  unfold redshift_call, redshift_log_prob. rewrite redshift_norm_fin.
  rewrite Hm. cbn [zm_max nle]. rewrite Rleb_t by lra. cbn [nwhere].
  rewrite redshift_prob_fin by lra. rewrite ndiv_fin by lra.
  pose proof (Rpower_pos (1 + z) (lamb - 1)).
  eexists; split; [reflexivity|]. split.
  - apply Rdiv_lt_0_compat; auto. apply Rmult_lt_0_compat; auto.
  - rewrite nadd_fin, nsub_fin, !nlog_fin by lra. rewrite nmul_fin, nadd_fin, nsub_fin. f_equal.
    unfold Rdiv. rewrite ln_mult, ln_mult, ln_Rinv; auto.
    + unfold Rpower. rewrite ln_exp. ring.
    + apply Rmult_lt_0_compat; auto.
    + apply Rinv_0_lt_compat; auto.
Qed.

Lemma redshift_above z dv : b < z ->
  redshift_call m (Fin z) dv (Fin lamb) = Fin 0 /\ redshift_log_prob m (Fin z) dv (Fin lamb) = Fin (- FMAX).
Proof.
  intros Hz. unfold redshift_call, redshift_log_prob. rewrite Hm. cbn [zm_max nle]. rewrite Rleb_f by auto.
  cbn [nwhere]. split; reflexivity.
Qed.
End Redshift.

(** ** witnesses and packaged statements *)
Lemma powerlaw_floor_reals x alpha low high floor :
  (x < low \/ high < x -> powerlaw_pdf (Fin x) (Fin alpha) (Fin low) (Fin high) (Fin floor) = Fin floor) /\
  (0 < low < high -> low <= x <= high ->
     exists p, powerlaw_pdf (Fin x) (Fin alpha) (Fin low) (Fin high) (Fin floor) = Fin p /\ 0 < p).
Proof.
  split.
  - intros H. apply powerlaw_pdf_out. destruct H; [left|right]; cbn; apply Rltb_true; auto.
  - intros H Hx. rewrite powerlaw_pdf_in by auto. eexists; split; [reflexivity|].
    apply Rmult_lt_0_compat; [apply plnorm_pos; auto | apply Rpower_pos].
Qed.

Lemma smooth_window_all dx xmin x y : 0 < dx -> xmin < x -> x < y -> y < xmin + dx ->
  exists v w, smooth (Fin dx) (Fin x) (Fin xmin) = Fin v /\
              smooth (Fin dx) (Fin y) (Fin xmin) = Fin w /\ 0 < v /\ v < w /\ w < 1.
Proof.
  intros Hd Hx Hxy Hy.
  destruct (smooth_monotone_window dx xmin x y) as (v & w & E1 & E2 & L); auto.
  destruct (smooth_in_window dx xmin x) as (v' & E1' & B1); [auto|lra|].
  destruct (smooth_in_window dx xmin y) as (w' & E2' & B2); [auto|lra|].
  exists v, w. rewrite E1 in E1'. rewrite E2 in E2'. apply Fin_inj in E1'. apply Fin_inj in E2'. subst.
  repeat split; auto; lra.
Qed.

Lemma smooth_refuted : exists dx x xmin, 0 < dx /\ x < xmin /\ smooth (Fin dx) (Fin x) (Fin xmin) <> Fin 0.
Proof.
  exists 5, 1, 2. repeat split; try lra.
  destruct (smooth_below 5 2 1) as (v & -> & Hv); try lra. intros E. apply Fin_inj in E. lra.
Qed.

Lemma falloff_actual m1 q alpha beta mmin mmax fall_off : 0 < mmin < m1 -> mmin / m1 <= q <= 1 ->
  exists p_q,
  powerlaw_pdf (Fin q) (Fin beta) (Fin mmin / Fin m1)%num (Fin 1) (Fin 0) = Fin p_q /\ 0 < p_q /\
  powerlaw_primary_ratio_falloff_pdf (Fin m1) (Fin q) (Fin alpha) (Fin beta) (Fin mmin) (Fin mmax) (Fin fall_off)
  = Fin (p_q * (Rpower m1 alpha * logistic_up fall_off mmin m1 * logistic_down 4 mmax m1)).
Proof.
  intros Hm Hq.
  assert (Hlow : 0 < mmin / m1 < 1).
  { split; [apply Rdiv_lt_0_compat; lra|]. apply Rmult_lt_reg_r with m1; [lra|].
    unfold Rdiv. rewrite Rmult_assoc, Rinv_l; lra. }
  unfold powerlaw_primary_ratio_falloff_pdf.
  rewrite !ndiv_fin by lra. rewrite powerlaw_pdf_in by auto.
  eexists; split; [reflexivity|]. split.
  - apply Rmult_lt_0_compat; [apply plnorm_pos; auto | apply Rpower_pos].
  - change (Some (Fin mmin)) with (option_map Fin (Some mmin)).
    change (Some (Fin mmax)) with (option_map Fin (Some mmax)).
    rewrite powerlaw_logit_fin by lra. reflexivity.
Qed.

Lemma falloff_refuted : exists m1 q alpha beta mmin mmax fall_off p_q,
  powerlaw_pdf (Fin q) (Fin beta) (Fin mmin / Fin m1)%num (Fin 1) (Fin 0) = Fin p_q /\ 0 < p_q /\
  powerlaw_primary_ratio_falloff_pdf (Fin m1) (Fin q) (Fin alpha) (Fin beta) (Fin mmin) (Fin mmax) (Fin fall_off)
  <> Fin (p_q * (Rpower m1 alpha * logistic_up fall_off mmin m1 * logistic_down fall_off mmax m1)).
Proof.
  destruct (falloff_actual 90 (1/2) (-2) 1 5 80 1) as (p & E & Hp & F); try lra.
  exists 90, (1/2), (-2), 1, 5, 80, 1, p. repeat split; auto.
  rewrite F. intros K. apply Fin_inj in K.
  assert (logistic_down 4 80 90 < logistic_down 1 80 90).
  { unfold logistic_down. pose proof (exp_pos (4 * (90 - 80))). pose proof (exp_pos (1 * (90 - 80))).
    assert (exp (1 * (90 - 80)) < exp (4 * (90 - 80))) by (apply exp_increasing; lra).
    apply Rinv_lt_contravar; nra. }
  assert (0 < logistic_up 1 5 90) by apply inv_logit_bound.
  pose proof (Rpower_pos 90 (-2)).
  assert (0 < p * (Rpower 90 (-2) * logistic_up 1 5 90)) by (repeat apply Rmult_lt_0_compat; auto).
  nra.
Qed.

Lemma beta_integral_22 : beta_integral 2 2 (1/6).
Proof.
  split; [|lra].
  apply (is_RInt_ext_open (fun t => t * (1 - t))); [lra| |].
  - intros t Ht. replace (2 - 1) with 1 by ring. rewrite !Rpower_1 by lra. reflexivity.
  - apply FTC_eq with (F := fun t => t^2/2 - t^3/3); try lra.
    + intros x _. auto_derive; auto. field.
    + intros x _. apply ex_derive_cont. auto_derive; auto.
Qed.

Lemma redshift_below_refuted (dVcdz : num -> num) :
  (forall z, 0 < z -> exists v, 0 < v /\ dVcdz (Fin z) = Fin v) ->
  exists z lamb p,
    let m := redshift_model_init dVcdz (Fin 1) [Fin 2] (Fin 1) [Fin 2] in
    nlt (Fin z) (zm_min m) = true /\ 0 < p /\
    redshift_call m (Fin z) (dVcdz (Fin z)) (Fin lamb) = Fin p.
Proof.
  intros H. exists (1/2), 0.
  set (m := redshift_model_init dVcdz (Fin 1) [Fin 2] (Fin 1) [Fin 2]).
  set (v := fun z => match dVcdz (Fin z) with Fin r => r | _ => 0 end).
  assert (Hm : m = {| zm_min := Fin 1; zm_max := Fin 2; zm_zs := nlinspace (Fin 1) (Fin 2) 1000;
                       zm_dV := map dVcdz (nlinspace (Fin 1) (Fin 2) 1000) |}).
  { assert (E1 : nminl (Fin 1) [Fin 2] = Fin 1).
    { unfold nminl. cbn [fold_left nmin nle]. rewrite Rleb_t by lra. reflexivity. }
    assert (E2 : nmaxl (Fin 1) [Fin 2] = Fin 2).
    { unfold nmaxl. cbn [fold_left nmax nle]. rewrite Rleb_t by lra. reflexivity. }
    assert (E3 : nmax (Fin 1) (Fin 1) = Fin 1) by (cbn [nmax nle]; rewrite Rleb_t by lra; reflexivity).
    assert (E4 : nmin (Fin 2) (Fin 2) = Fin 2) by (cbn [nmin nle]; rewrite Rleb_t by lra; reflexivity).
    unfold m, redshift_model_init. rewrite E1, E2, E3, E4. reflexivity. }
  destruct (H (1/2)) as (v0 & Hv0 & E0); [lra|].
  destruct (redshift_log_call dVcdz v 1 2 0 m) with (z := 1/2) (dv := v0) as (p & E & Hp & _); auto; try lra.
  - intros z Hz. unfold v. destruct (H z) as (w & Hw & ->); [lra|]. reflexivity.
  - intros z Hz. unfold v. destruct (H z) as (w & Hw & ->); lra.
  - intros z Hz. unfold v. destruct (H z) as (w & Hw & ->); lra.
  - exists p. cbn zeta. rewrite E0. repeat split; auto.
    rewrite Hm. cbn. apply Rltb_true; lra.
Qed.

(** the constructor's fields, for finite non-empty samples *)
Lemma nminl_fin x l : nminl (Fin x) (map Fin l) = Fin (fold_left Rmin l x).
Proof.
  unfold nminl. revert x. induction l as [|y l IH]; intros x; [reflexivity|].
  cbn [map fold_left nmin nle]. rewrite <- IH. f_equal. unfold Rmin, Rleb. destruct (Rle_dec x y); reflexivity.
Qed.
Lemma nmaxl_fin x l : nmaxl (Fin x) (map Fin l) = Fin (fold_left Rmax l x).
Proof.
  unfold nmaxl. revert x. induction l as [|y l IH]; intros x; [reflexivity|].
  cbn [map fold_left nmax nle]. rewrite <- IH. f_equal. unfold Rmax, Rleb. destruct (Rle_dec x y); reflexivity.
Qed.
Lemma redshift_init_fin dVcdz p0 pe i0 inj :
  let a := Rmax (fold_left Rmin pe p0) (fold_left Rmin inj i0) in
  let b := Rmin (fold_left Rmax pe p0) (fold_left Rmax inj i0) in
  redshift_model_init dVcdz (Fin p0) (map Fin pe) (Fin i0) (map Fin inj)
  = {| zm_min := Fin a; zm_max := Fin b; zm_zs := nlinspace (Fin a) (Fin b) 1000;
       zm_dV := map dVcdz (nlinspace (Fin a) (Fin b) 1000) |}.
Proof.
  intros a b. unfold redshift_model_init. rewrite !nminl_fin, !nmaxl_fin.
  replace (nmax (Fin (fold_left Rmin pe p0)) (Fin (fold_left Rmin inj i0))) with (Fin a).
  - replace (nmin (Fin (fold_left Rmax pe p0)) (Fin (fold_left Rmax inj i0))) with (Fin b); [reflexivity|].
    unfold b, Rmin at 1. cbn. unfold Rleb. destruct (Rle_dec _ _); reflexivity.
  - unfold a, Rmax at 1. cbn. unfold Rleb. destruct (Rle_dec _ _); reflexivity.
Qed.

Lemma redshift_model_all dVcdz v p0 pe i0 inj lamb :
  let a := Rmax (fold_left Rmin pe p0) (fold_left Rmin inj i0) in
  let b := Rmin (fold_left Rmax pe p0) (fold_left Rmax inj i0) in
  let m := redshift_model_init dVcdz (Fin p0) (map Fin pe) (Fin i0) (map Fin inj) in
  -1 < a -> a < b ->
  (forall z, a <= z <= b -> dVcdz (Fin z) = Fin (v z) /\ 0 <= v z /\ (a < z -> 0 < v z)) ->
  ntrapz (map (fun z => redshift_call m z (dVcdz z) (Fin lamb)) (zm_zs m)) (zm_zs m) = Fin 1 /\
  (forall z dv, -1 < z <= b -> 0 < dv ->
     exists p, redshift_call m (Fin z) (Fin dv) (Fin lamb) = Fin p /\ 0 < p /\
               redshift_log_prob m (Fin z) (Fin dv) (Fin lamb) = Fin (ln p)) /\
  (forall z dv, b < z -> redshift_call m (Fin z) dv (Fin lamb) = Fin 0 /\
                         redshift_log_prob m (Fin z) dv (Fin lamb) = Fin (- FMAX)).
Proof.
  intros a b m Ha Hab HV. pose proof (redshift_init_fin dVcdz p0 pe i0 inj) as Hm.
  fold a b m in Hm. cbn zeta in Hm.
  repeat split.
  - apply (redshift_normalised dVcdz v a b lamb m); auto; intros z Hz; apply HV; lra.
  - intros z dv Hz Hd. apply (redshift_log_call dVcdz v a b lamb m); auto; intros y Hy; apply HV; lra.
  - eapply redshift_above; eauto.
  - eapply redshift_above; eauto.
Qed.

(** the density shape: dV/dz times (1+z)^(lamb-1), constant of proportionality common to all z *)
Lemma redshift_shape m z1 z2 d1 d2 lamb p1 p2 : -1 < z1 -> -1 < z2 -> 
  nle (Fin z1) (zm_max m) = true -> nle (Fin z2) (zm_max m) = true ->
  redshift_call m (Fin z1) (Fin d1) (Fin lamb) = Fin p1 ->
  redshift_call m (Fin z2) (Fin d2) (Fin lamb) = Fin p2 ->
  p1 * (d2 * Rpower (1 + z2) (lamb - 1)) = p2 * (d1 * Rpower (1 + z1) (lamb - 1)).
Proof.
  intros H1 H2 L1 L2. unfold redshift_call. rewrite L1, L2. cbn [nwhere].
  rewrite !redshift_prob_fin by auto.
  destruct (redshift_normalization m (Fin lamb)) as [n| | |]; cbn [ndiv].
  - destruct (Reqb n 0) eqn:En.
    + apply Reqb_true in En. subst n. unfold sinf. rcases; discriminate.
    + apply Reqb_false in En. intros E1 E2. apply Fin_inj in E1. apply Fin_inj in E2. subst. field. auto.
  - intros E1 E2. apply Fin_inj in E1. apply Fin_inj in E2. subst. ring.
  - intros E1 E2. apply Fin_inj in E1. apply Fin_inj in E2. subst. ring.
  - discriminate.
Qed.

Lemma iid_mag_props betaln a1 a2 al be amax :
  iid_spin_magnitude betaln a1 a2 al be amax
  = (beta_spin_magnitude betaln a1 al be amax * beta_spin_magnitude betaln a2 al be amax)%num /\
  iid_spin_magnitude betaln a1 a2 al be amax = iid_spin_magnitude betaln a2 a1 al be amax /\
  independent_spin_magnitude_beta_dist betaln a1 a2 al be al be amax amax = iid_spin_magnitude betaln a1 a2 al be amax.
Proof.
  repeat split. unfold iid_spin_magnitude. apply nmul_comm.
Qed.

Lemma independent_mag_joint betaln a1 b1 s1 l1 a2 b2 s2 l2 : 0 < s1 -> 0 < s2 -> 1 < a1 -> 1 < b1 -> 1 < a2 -> 1 < b2 ->
  betaln (Fin a1) (Fin b1) = Fin l1 -> beta_integral a1 b1 (exp l1) ->
  betaln (Fin a2) (Fin b2) = Fin l2 -> beta_integral a2 b2 (exp l2) ->
  exists g, joint_density_on (fun x y => independent_spin_magnitude_beta_dist betaln (Fin x) (Fin y)
        (Fin a1) (Fin b1) (Fin a2) (Fin b2) (Fin s1) (Fin s2)) 0 s1 (fun _ => 0) (fun _ => s2) g.
Proof.
  intros. unfold independent_spin_magnitude_beta_dist.
  apply (density_prod (fun x => betadist betaln (Fin x) (Fin a1) (Fin b1) (Fin s1) (Fin 0))
           (fun y => betadist betaln (Fin y) (Fin a2) (Fin b2) (Fin s2) (Fin 0))); auto;
  eapply betadist_density; eauto.
Qed.

Lemma independent_tilt_joint xi1 sig1 xi2 sig2 : 0 <= xi1 <= 1 -> 0 <= xi2 <= 1 -> 0 < sig1 -> 0 < sig2 ->
  exists g, joint_density_on (fun x y => independent_spin_tilt (Fin x) (Fin y) (Fin xi1) (Fin xi2) (Fin sig1) (Fin sig2))
     (-1) 1 (fun _ => -1) (fun _ => 1) g.
Proof.
  intros. unfold independent_spin_tilt.
  apply (density_prod (fun x => mixture_isoalign_spin_tilt (Fin x) (Fin xi1) (Fin sig1))
           (fun y => mixture_isoalign_spin_tilt (Fin y) (Fin xi2) (Fin sig2))); try apply tilt_density; auto; lra.
Qed.
Lemma tilt_symm c1 c2 xi sig :
  iid_spin_tilt c1 c2 xi sig = iid_spin_tilt c2 c1 xi sig /\
  independent_spin_tilt c1 c2 xi xi sig sig = iid_spin_tilt c1 c2 xi sig.
Proof. split; [apply nmul_comm|reflexivity]. Qed.
Lemma default_tilt_symm c1 c2 xi sig :
  default_spin_tilt (Fin c1) (Fin c2) (Fin xi) sig = default_spin_tilt (Fin c2) (Fin c1) (Fin xi) sig.
Proof.
  unfold default_spin_tilt.
  set (i1 := nwhere (ngt (Fin c1) _ || _) _ _). set (i2 := nwhere (ngt (Fin c2) _ || _) _ _).
  set (t1 := truncnorm_pdf (Fin c1) _ _ _ _ _). set (t2 := truncnorm_pdf (Fin c2) _ _ _ _ _).
  assert (Hi : exists u w, i1 = Fin u /\ i2 = Fin w).
  { unfold i1, i2. destruct (ngt (Fin c1) _ || _), (ngt (Fin c2) _ || _); cbn; eauto. }
  destruct Hi as (u & w & -> & ->). rewrite nsub_fin, !nmul_fin. f_equal; [f_equal; ring|].
  rewrite <- !nmul_assoc. f_equal. apply nmul_comm.
Qed.
Lemma plpeak_mixture m1 alpha mmin mmax mpp sigpp lam p n :
  powerlaw_pdf (Fin m1) (Fin alpha) (Fin mmin) (Fin mmax) (Fin 0) = Fin p ->
  truncnorm_pdf (Fin m1) (Fin mpp) (Fin sigpp) (Fin mmin) (Fin mmax) false = Fin n ->
  plpeak_primary_pdf (Fin m1) (Fin alpha) (Fin mmin) (Fin mmax) (Fin mpp) (Fin sigpp) (Fin lam) None
  = Fin ((1 - lam) * p + lam * n).
Proof. intros E F. unfold plpeak_primary_pdf. rewrite E, F. reflexivity. Qed.
Lemma tilt_all xi sig : 0 <= xi <= 1 -> 0 < sig ->
  density_on (fun ct => mixture_isoalign_spin_tilt (Fin ct) (Fin xi) (Fin sig)) (-1) 1 /\
  zero_outside (fun ct => mixture_isoalign_spin_tilt (Fin ct) (Fin xi) (Fin sig)) (-1) 1 /\
  (forall ct n, -1 <= ct <= 1 -> truncnorm_pdf (Fin ct) (Fin 1) (Fin sig) (Fin (-1)) (Fin 1) false = Fin n ->
     mixture_isoalign_spin_tilt (Fin ct) (Fin xi) (Fin sig) = Fin ((1 - xi) * (1/2) + xi * n)).
Proof.
  intros Hx Hs. split; [apply tilt_density; auto|]. split.
  - intros ct H. apply tilt_out; auto.
  - intros ct n Hc E. rewrite tilt_in by auto. rewrite truncnorm_pdf_in in E by (auto; lra).
    apply Fin_inj in E. subst n. unfold tilt_f. f_equal. field.
Qed.
