(** Second-order accuracy of the distances. *)
From Coq Require Import Lia Lra.
From Verif Require Import PCollectPrior.
From Verif Require Export PCosmologyV SpecPlanck MPlanck.
From Verif Require Export Spec.
Open Scope R_scope.

(** ** a function whose derivative is Lipschitz on a cell, against its chord *)
Section Cell.
Variables (f f' : R -> R) (a h M : R).
Hypothesis Hh : 0 < h.
Hypothesis HD : forall x, a <= x <= a + h -> is_derive f x (f' x).
Hypothesis HL : forall x y, a <= x <= a + h -> a <= y <= a + h -> Rabs (f' x - f' y) <= M * Rabs (x - y).
Let chord x := f a + (x - a) / (a + h - a) * (f (a + h) - f a).
Lemma mvt_cell x y : a <= x -> x <= y -> y <= a + h -> exists c, x <= c <= y /\ f y - f x = f' c * (y - x).
Proof.
  intros Hx Hxy Hy. destruct (MVT_gen f x y f') as (c & Hc & E).
  - intros t Ht. rewrite Rmin_left, Rmax_right in Ht by lra. apply HD. lra.
  - intros t Ht. rewrite Rmin_left, Rmax_right in Ht by lra. apply continuity_pt_filterlim, (ex_derive_continuous f). exists (f' t). apply HD. lra.
  - rewrite Rmin_left, Rmax_right in Hc by lra. eauto.
Qed.
Lemma cell_M : 0 <= M.
Proof.
  pose proof (HL (a + h) a ltac:(lra) ltac:(lra)) as Q. replace (a + h - a) with h in Q by ring. rewrite (Rabs_right h) in Q by lra. pose proof (Rabs_pos (f' (a + h) - f' a)). nra.
Qed.
Lemma chord_error x : a <= x <= a + h -> Rabs (f x - chord x) <= M * ((x - a) * (a + h - x)).
Proof.
  intros Hx. destruct (mvt_cell a x) as (c & Hc & E1); [lra|lra|lra|]. destruct (mvt_cell x (a + h)) as (d & Hd & E2); [lra|lra|lra|].
  unfold chord. replace (f (a + h) - f a) with (f' d * (a + h - x) + f' c * (x - a)) by lra. replace (f x) with (f a + f' c * (x - a)) by lra.
  replace (f a + f' c * (x - a) - (f a + (x - a) / (a + h - a) * (f' d * (a + h - x) + f' c * (x - a)))) with ((x - a) * (a + h - x) * ((f' c - f' d) / h)) by (field; lra).
  rewrite Rabs_mult, (Rabs_right ((x - a) * (a + h - x))) by nra. rewrite (Rmult_comm M). apply Rmult_le_compat_l; [nra|].
  unfold Rdiv. rewrite Rabs_mult, (Rabs_right (/ h)) by (left; apply Rinv_0_lt_compat; auto). pose proof (HL c d ltac:(lra) ltac:(lra)) as Q.
  rewrite (Rabs_left1 (c - d)) in Q by lra. pose proof cell_M. apply Rmult_le_reg_r with h; auto. rewrite Rmult_assoc, Rinv_l, Rmult_1_r by lra. nra.
Qed.
Lemma chord_mid x : a <= x <= a + h -> Rabs (f x - chord x) <= M * h ^ 2 / 4.
Proof.
  intros Hx. apply Rle_trans with (1 := chord_error x Hx). pose proof cell_M. assert ((x - a) * (a + h - x) <= h ^ 2 / 4) by (pose proof (pow2_ge_0 (x - a - h / 2)); nra). nra.
Qed.
Lemma trapezoid_cell I : is_RInt f a (a + h) I -> Rabs (1 / 2 * (f a + f (a + h)) * h - I) <= M * h ^ 3 / 6.
Proof.
  intros HI. assert (HC : is_RInt chord a (a + h) ((a + h - a) * (f a + f (a + h)) / 2)) by (apply is_RInt_linear; lra).
  assert (HQ : is_RInt (fun x => M * ((x - a) * (a + h - x))) a (a + h) (M * h ^ 3 / 6)).
  { set (J := fun x => M * (h * (x - a) ^ 2 / 2 - (x - a) ^ 3 / 3)). apply (is_RInt_val _ _ _ (minus (J (a + h)) (J a))); [|unfold J, minus, plus, opp; cbn; field].
    apply (is_RInt_derive J); intros x Hx; [unfold J; auto_derive; auto; field|]. apply (ex_derive_continuous (fun x => M * ((x - a) * (a + h - x)))). auto_derive. auto. }
  pose proof (is_RInt_minus _ _ _ _ _ _ HC HI) as HDf. pose proof (is_RInt_opp _ _ _ _ HQ) as HQ'.
  apply Rabs_le_between. replace (1 / 2 * (f a + f (a + h)) * h - I) with (minus ((a + h - a) * (f a + f (a + h)) / 2) I) by (unfold minus, plus, opp; cbn; field).
  split; [apply (is_RInt_le _ _ _ _ _ _ (ltac:(lra) : a <= a + h) HQ' HDf)|apply (is_RInt_le _ _ _ _ _ _ (ltac:(lra) : a <= a + h) HDf HQ)];
    intros x Hx; pose proof (chord_error x ltac:(lra)) as T; apply Rabs_le_between in T; unfold minus, plus, opp; cbn; lra.
Qed.
End Cell.

(** ** derivatives of the comoving rate *)
Section Flat.
Variables ho om orad ol : R.
Hypothesis HF : flat ho om orad ol.
Hypothesis Hol : 0 <= ol.
Let H := light / ho.
Let f := comoving_rate ho om orad.
Let g z := (1 - om - orad) + om * (1 + z) ^ 3 + orad * (1 + z) ^ 4.
Let g1 z := 3 * om * (1 + z) ^ 2 + 4 * orad * (1 + z) ^ 3.
Let g2 z := 6 * om * (1 + z) + 12 * orad * (1 + z) ^ 2.
Let f1 z := - H / 2 * (g1 z / (g z * sqrt (g z))).
Let f2 z := - H / 2 * (g2 z / (g z * sqrt (g z))) + 3 * H / 4 * (g1 z ^ 2 / (g z ^ 2 * sqrt (g z))).
Lemma H_pos : 0 < H. Proof. apply (coH_pos ho om orad ol HF). Qed.
Lemma g_ge z : 0 <= z -> 1 <= g z. Proof. intros. apply (E2_ge _ _ _ _ HF). auto. Qed.
Lemma s_ge z : 0 <= z -> 1 <= sqrt (g z). Proof. intros. rewrite <- sqrt_1. apply sqrt_le_1_alt, g_ge. auto. Qed.
Lemma g1_bounds z : 0 <= z -> 0 <= (1 + z) * g1 z <= 4 * g z.
Proof.
  intros Hz. destruct HF as (_ & A & B & E). unfold g1, g. assert (0 <= om * (1 + z) ^ 3) by (apply Rmult_le_pos; auto; apply pow_le; lra). assert (0 <= orad * (1 + z) ^ 4) by (apply Rmult_le_pos; auto; apply pow_le; lra).
  replace ((1 + z) * (3 * om * (1 + z) ^ 2 + 4 * orad * (1 + z) ^ 3)) with (3 * (om * (1 + z) ^ 3) + 4 * (orad * (1 + z) ^ 4)) by ring. lra.
Qed.
Lemma g2_bounds z : 0 <= z -> 0 <= (1 + z) ^ 2 * g2 z <= 12 * g z.
Proof.
  intros Hz. destruct HF as (_ & A & B & E). unfold g2, g. assert (0 <= om * (1 + z) ^ 3) by (apply Rmult_le_pos; auto; apply pow_le; lra). assert (0 <= orad * (1 + z) ^ 4) by (apply Rmult_le_pos; auto; apply pow_le; lra).
  replace ((1 + z) ^ 2 * (6 * om * (1 + z) + 12 * orad * (1 + z) ^ 2)) with (6 * (om * (1 + z) ^ 3) + 12 * (orad * (1 + z) ^ 4)) by ring. lra.
Qed.
Lemma f_derive z : 0 <= z -> is_derive f z (f1 z).
Proof.
  intros Hz. pose proof (g_ge z Hz) as G. pose proof (s_ge z Hz) as S. unfold f, comoving_rate, hubble, f1. unfold g, g1 in *. auto_derive.
  - cbn [pow] in G, S. rewrite !Rmult_1_r in G, S. rewrite !Rmult_1_r. split; [lra|]. split; auto. lra.
  - unfold H. set (G0 := 1 - om - orad + om * (1 + z) ^ 3 + orad * (1 + z) ^ 4) in *. 
    replace (1 - om - orad + om * ((1 + z) * ((1 + z) * ((1 + z) * 1))) + orad * ((1 + z) * ((1 + z) * ((1 + z) * ((1 + z) * 1))))) with G0 by (unfold G0; ring).
    assert (Q : sqrt G0 * sqrt G0 = G0) by (apply sqrt_sqrt; lra). destruct HF as (Hho & _). 
    rewrite Q. clearbody G0. field. repeat split; lra.
Qed.
Lemma g_derive z : is_derive g z (g1 z).
Proof. unfold g, g1. auto_derive; auto. ring. Qed.
Lemma g1_derive z : is_derive g1 z (g2 z).
Proof. unfold g1, g2. auto_derive; auto. ring. Qed.
Lemma f1_derive z : 0 <= z -> is_derive f1 z (f2 z).
Proof.
  intros Hz. pose proof (g_ge z Hz) as G. pose proof (s_ge z Hz) as S. unfold f1, f2.
  evar_last; [apply is_derive_scal, is_derive_div; [apply g1_derive|apply (is_derive_mult g (fun z => sqrt (g z)) z (g1 z) (g1 z / (2 * sqrt (g z)))); [apply g_derive| |intros; apply Rmult_comm]|]|].
  - apply is_derive_sqrt; [apply g_derive|lra].
  - apply Rgt_not_eq, Rmult_lt_0_compat; lra.
  - unfold scal, plus, mult; cbn. unfold mult; cbn. assert (Q : sqrt (g z) * sqrt (g z) = g z) by (apply sqrt_sqrt; lra).
    set (s := sqrt (g z)) in *. rewrite <- Q. clearbody s. field. lra.
Qed.
Lemma inv_le1 z : 0 <= z -> 0 < / sqrt (g z) <= 1.
Proof. intros Hz. pose proof (s_ge z Hz). split; [apply Rinv_0_lt_compat; lra|]. rewrite <- Rinv_1. apply Rinv_le_contravar; lra. Qed.
Lemma f1_bound z : 0 <= z -> Rabs (f1 z) <= 2 * H.
Proof.
  intros Hz. pose proof (g_ge z Hz) as G. pose proof (inv_le1 z Hz) as S. pose proof (g1_bounds z Hz) as G1. pose proof H_pos. pose proof (s_ge z Hz).
  assert (Q : 0 <= g1 z / g z <= 4).
  { assert (0 <= g1 z) by nra. split; [apply Rmult_le_pos; [auto|left; apply Rinv_0_lt_compat; lra]|]. apply Rmult_le_reg_r with (g z); [lra|]. unfold Rdiv. rewrite Rmult_assoc, Rinv_l by lra. nra. }
  replace (f1 z) with (- (H / 2 * ((g1 z / g z) * / sqrt (g z)))) by (unfold f1; field; lra). rewrite Rabs_Ropp, Rabs_right; [|apply Rle_ge, Rmult_le_pos; [lra|apply Rmult_le_pos; lra]].
  assert ((g1 z / g z) * / sqrt (g z) <= 4) by nra. nra.
Qed.
Lemma f2_bound a z : 0 <= a -> a <= z -> Rabs (f2 z) <= 12 * H / (1 + a) ^ 2.
Proof.
  intros Ha Hz0. assert (Hz : 0 <= z) by lra. pose proof (g_ge z Hz) as G. pose proof (inv_le1 z Hz) as S. pose proof (g1_bounds z Hz) as G1. pose proof (g2_bounds z Hz) as G2. pose proof H_pos. pose proof (s_ge z Hz).
  set (x := 1 + z) in *. assert (Hx : 1 <= x) by (unfold x; lra).
  assert (Q1 : 0 <= x * g1 z / g z <= 4).
  { split; [apply Rmult_le_pos; [lra|left; apply Rinv_0_lt_compat; lra]|]. apply Rmult_le_reg_r with (g z); [lra|]. unfold Rdiv. rewrite Rmult_assoc, Rinv_l by lra. lra. }
  assert (Q2 : 0 <= x ^ 2 * g2 z / g z <= 12).
  { split; [apply Rmult_le_pos; [lra|left; apply Rinv_0_lt_compat; lra]|]. apply Rmult_le_reg_r with (g z); [lra|]. unfold Rdiv. rewrite Rmult_assoc, Rinv_l by lra. lra. }
  replace (f2 z) with (H * / sqrt (g z) * (- / 2 * (x ^ 2 * g2 z / g z) + 3 / 4 * (x * g1 z / g z) ^ 2) * / x ^ 2) by (unfold f2; field; repeat split; lra).
  set (u := x * g1 z / g z) in *. set (v := x ^ 2 * g2 z / g z) in *. assert (U : 0 <= u ^ 2 <= 16) by nra.
  assert (B : Rabs (- / 2 * v + 3 / 4 * u ^ 2) <= 12) by (apply Rabs_le_between; lra).
  assert (P : 0 < / x ^ 2) by (apply Rinv_0_lt_compat, pow_lt; lra).
  rewrite !Rabs_mult, (Rabs_right H), (Rabs_right (/ sqrt (g z))), (Rabs_right (/ x ^ 2)) by lra.
  apply Rle_trans with (12 * H * / x ^ 2).
  - apply Rmult_le_compat_r; [lra|]. pose proof (Rabs_pos (- / 2 * v + 3 / 4 * u ^ 2)). assert (/ sqrt (g z) * Rabs (- / 2 * v + 3 / 4 * u ^ 2) <= 12) by nra. nra.
  - unfold Rdiv. apply Rmult_le_compat_l; [lra|]. apply Rinv_le_contravar; [apply pow_lt; lra|]. apply pow_incr. unfold x. lra.
Qed.
Lemma f1_lip a b x y : 0 <= a -> a <= x <= b -> a <= y <= b -> Rabs (f1 x - f1 y) <= 12 * H / (1 + a) ^ 2 * Rabs (x - y).
Proof.
  intros Ha Hx Hy. destruct (MVT_gen f1 y x f2) as (c & Hc & E).
  - intros t Ht. apply f1_derive. unfold Rmin, Rmax in Ht. destruct (Rle_dec y x); lra.
  - intros t Ht. apply continuity_pt_filterlim, (ex_derive_continuous f1). exists (f2 t). apply f1_derive. unfold Rmin, Rmax in Ht. destruct (Rle_dec y x); lra.
  - rewrite E, Rabs_mult. apply Rmult_le_compat_r; [apply Rabs_pos|]. apply f2_bound; auto. unfold Rmin, Rmax in Hc. destruct (Rle_dec y x); lra.
Qed.
Lemma f_lip x y : 0 <= x -> 0 <= y -> Rabs (f x - f y) <= 2 * H * Rabs (x - y).
Proof.
  intros Hx Hy. destruct (MVT_gen f y x f1) as (c & Hc & E).
  - intros t Ht. apply f_derive. unfold Rmin, Rmax in Ht. destruct (Rle_dec y x); lra.
  - intros t Ht. apply continuity_pt_filterlim, (ex_derive_continuous f). exists (f1 t). apply f_derive. unfold Rmin, Rmax in Ht. destruct (Rle_dec y x); lra.
  - rewrite E, Rabs_mult. apply Rmult_le_compat_r; [apply Rabs_pos|]. apply f1_bound; auto. unfold Rmin, Rmax in Hc. destruct (Rle_dec y x); lra.
Qed.

(** ** the tabulated and the interpolated comoving distance *)
Variable dz : R.
Hypothesis Hdz : 0 < dz.
Notation D := (Dr ho om orad dz).
Notation zi := (zi dz).
Lemma D_second i : exists I, is_RInt f 0 (zi i) I /\ Rabs (D i - I) <= 2 * H * dz ^ 2 * (1 + dz - (match i with O => 1 + dz | S j => / (1 + zi j) end)).
Proof.
  induction i as [|i (I & HI & HE)].
  - exists 0. rewrite zi_0. split; [apply (is_RInt_val _ _ _ _ _ (is_RInt_point f 0)); reflexivity|]. cbn [Dr]. rewrite !Rminus_eq_0, Rabs_R0. lra.
  - assert (Hz : 0 <= zi i) by apply (z_nonneg dz Hdz). destruct (f_int ho om orad ol HF (zi i) (zi i + dz)) as (J & HJ & _); [lra|lra|].
    assert (ES : zi (S i) = zi i + dz) by apply z_S. rewrite ES. exists (I + J). split; [apply (is_RInt_ChaslesR f 0 (zi i)); auto|]. rewrite D_S.
    change (INR i * dz) with (zi i). pose proof H_pos as HP.
    pose proof (trapezoid_cell f f1 (zi i) dz (12 * H / (1 + zi i) ^ 2) Hdz (fun x Hx => f_derive x ltac:(lra)) (fun x y => f1_lip (zi i) (zi i + dz) x y Hz) J HJ) as T.
    fold f. replace (D i + 1 / 2 * (f (zi i) + f (zi i + dz)) * dz - (I + J)) with ((D i - I) + (1 / 2 * (f (zi i) + f (zi i + dz)) * dz - J)) by ring.
    apply Rle_trans with (1 := Rabs_triang _ _). 
    apply Rle_trans with (2 * H * dz ^ 2 * (1 + dz - match i with 0%nat => 1 + dz | S j => / (1 + zi j) end) + 12 * H / (1 + zi i) ^ 2 * dz ^ 3 / 6); [lra|].
    replace (12 * H / (1 + zi i) ^ 2 * dz ^ 3 / 6) with (2 * H * dz ^ 2 * (dz / (1 + zi i) ^ 2)) by (field; lra). rewrite <- Rmult_plus_distr_l. apply Rmult_le_compat_l; [apply Rmult_le_pos; [lra|apply pow2_ge_0]|].
    destruct i as [|i].
    + rewrite zi_0. replace (1 + 0) with 1 by ring. rewrite pow1, Rinv_1. lra.
    + assert (Hz' : 0 <= zi i) by apply (z_nonneg dz Hdz). assert (ES' : zi (S i) = zi i + dz) by apply z_S. rewrite ES' in *.
      cut (dz / (1 + (zi i + dz)) ^ 2 <= / (1 + zi i) - / (1 + (zi i + dz))); [lra|].
      replace (/ (1 + zi i) - / (1 + (zi i + dz))) with (dz * / ((1 + zi i) * (1 + (zi i + dz)))) by (field; lra). unfold Rdiv. apply Rmult_le_compat_l; [lra|].
      apply Rinv_le_contravar; [nra|]. cbn [pow]. rewrite Rmult_1_r. apply Rmult_le_compat_r; lra.
Qed.
Lemma D_accurate i : exists I, is_RInt f 0 (zi i) I /\ Rabs (D i - I) <= 2 * H * dz ^ 2 * (1 + dz).
Proof.
  destruct (D_second i) as (I & HI & HE). exists I. split; auto. apply Rle_trans with (1 := HE). pose proof H_pos. apply Rmult_le_compat_l; [apply Rmult_le_pos; [lra|apply pow2_ge_0]|].
  destruct i as [|i]; [lra|]. assert (Hz' : 0 <= zi i) by apply (z_nonneg dz Hdz). assert (0 < / (1 + zi i)) by (apply Rinv_0_lt_compat; lra). lra.
Qed.
(** the exact comoving distance as a function *)
Let dist z := RInt f 0 z.
Lemma dist_int z : 0 <= z -> is_RInt f 0 z (dist z).
Proof. intros Hz. apply (RInt_correct f). destruct (f_int ho om orad ol HF 0 z) as (I & HI & _); [lra|lra|]. exists I. exact HI. Qed.
Lemma dist_chord i z : zi i <= z <= zi (S i) -> Rabs (dist z - (dist (zi i) + (z - zi i) / dz * (dist (zi (S i)) - dist (zi i)))) <= H * dz ^ 2 / 2.
Proof.
  intros Hzi. assert (Hz : 0 <= zi i) by apply (z_nonneg dz Hdz). assert (ES : zi (S i) = zi i + dz) by apply z_S. rewrite ES in *.
  assert (ST : forall x y, 0 <= x -> x <= y -> f y * (y - x) <= dist y - dist x <= f x * (y - x)).
  { intros x y Hx Hy. destruct (f_int ho om orad ol HF x y Hx Hy) as (J & HJ & B). fold f in B. replace (dist y) with (dist x + J); [lra|].
    symmetry. apply is_RInt_unique. apply (is_RInt_ChaslesR f 0 x); [apply dist_int; auto|exact HJ]. }
  pose proof (ST (zi i) z ltac:(lra) ltac:(lra)) as S1. pose proof (ST z (zi i + dz) ltac:(lra) ltac:(lra)) as S2.
  pose proof (f_lip (zi i) (zi i + dz) ltac:(lra) ltac:(lra)) as FL. pose proof (f_decr _ _ _ _ HF (zi i) (zi i + dz) ltac:(lra) ltac:(lra)) as FD. fold f in FD.
  rewrite Rabs_right in FL by lra. replace (zi i - (zi i + dz)) with (- dz) in FL by ring. rewrite Rabs_Ropp, (Rabs_right dz) in FL by lra.
  pose proof (f_decr _ _ _ _ HF (zi i) z ltac:(lra) ltac:(lra)) as FD1. pose proof (f_decr _ _ _ _ HF z (zi i + dz) ltac:(lra) ltac:(lra)) as FD2. fold f in FD1, FD2. pose proof H_pos as HP.
  set (a := zi i) in *. set (A := dist z - dist a) in *. set (B := dist (a + dz) - dist z) in *.
  replace (dist z - (dist a + (z - a) / dz * (dist (a + dz) - dist a))) with (((a + dz - z) * A - (z - a) * B) / dz) by (unfold A, B; field; lra).
  clearbody A B. set (p := a + dz - z) in *. set (q := z - a) in *. assert (Hp : 0 <= p) by (unfold p; lra). assert (Hq : 0 <= q) by (unfold q; lra). assert (Hs : p + q = dz) by (unfold p, q; ring).
  assert (N1 : p * (f z * q) <= p * A <= p * (f a * q)) by (split; apply Rmult_le_compat_l; lra).
  assert (N2 : q * (f (a + dz) * p) <= q * B <= q * (f z * p)) by (split; apply Rmult_le_compat_l; lra).
  assert (PQ : 0 <= p * q <= dz ^ 2 / 4) by (split; [apply Rmult_le_pos; auto|]; rewrite <- Hs; pose proof (pow2_ge_0 (p - q)); nra).
  assert (N3 : 0 <= p * A - q * B <= (dz ^ 2 / 4) * (2 * H * dz)).
  { split; [lra|]. apply Rle_trans with (p * q * (f a - f (a + dz))); [lra|]. apply Rmult_le_compat; lra. }
  rewrite Rabs_right; [|apply Rle_ge, Rmult_le_pos; [lra|left; apply Rinv_0_lt_compat; auto]].
  apply Rmult_le_reg_r with dz; auto. unfold Rdiv at 1. rewrite Rmult_assoc, Rinv_l by lra. lra.
Qed.
Lemma Dof_accurate n z : (1 <= n)%nat -> 0 <= z <= zi (n - 1) -> Rabs (Dof ho om orad dz n z - dist z) <= H * dz ^ 2 * (5 / 2 + 2 * dz).
Proof.
  intros Hn Hz. pose proof H_pos as HP. pose proof (pow2_ge_0 dz) as D2. destruct (segment dz Hdz n z Hn Hz) as [[-> ->]|(i & Hi & Hzi)].
  - unfold Dof. cbn [seq map]. rewrite rinterp_left by (cbn; auto; rewrite zi_0; lra). cbn [Dr]. unfold dist. rewrite RInt_point. unfold zero; cbn. rewrite Rminus_0_r, Rabs_R0. apply Rmult_le_pos; [apply Rmult_le_pos; lra|lra].
  - unfold Dof. rewrite (interp_seg dz Hdz _ n i) by auto. pose proof (dist_chord i z Hzi) as C0.
    destruct (D_accurate i) as (I & HI & E1). destruct (D_accurate (S i)) as (J & HJ & E2). replace I with (dist (zi i)) in E1 by (apply is_RInt_unique; exact HI). replace J with (dist (zi (S i))) in E2 by (apply is_RInt_unique; exact HJ).
    assert (ES : zi (S i) = zi i + dz) by apply z_S. set (t := (z - zi i) / dz) in *.
    assert (Ht : 0 <= t <= 1). { unfold t. split; [apply Rmult_le_pos; [lra|left; apply Rinv_0_lt_compat; auto]|]. apply Rmult_le_reg_r with dz; auto. unfold Rdiv. rewrite Rmult_assoc, Rinv_l by lra. lra. }
    clearbody t. set (e := 2 * H * dz ^ 2 * (1 + dz)) in *. apply Rabs_le_between in C0, E1, E2. apply Rabs_le_between.
    set (d0 := D i) in *. set (d1 := D (S i)) in *. set (u0 := dist (zi i)) in *. set (u1 := dist (zi (S i))) in *.
    replace (d0 + t * (d1 - d0) - dist z) with ((1 - t) * (d0 - u0) + t * (d1 - u1) - (dist z - (u0 + t * (u1 - u0)))) by ring.
    replace (H * dz ^ 2 * (5 / 2 + 2 * dz)) with (e + H * dz ^ 2 / 2) by (unfold e; field). assert (- e <= (1 - t) * (d0 - u0) + t * (d1 - u1) <= e) by (clear - E1 E2 Ht; nra). lra.
Qed.
Lemma Lof_accurate n z : (1 <= n)%nat -> 0 <= z <= zi (n - 1) -> Rabs (Lof ho om orad dz n z - (1 + z) * dist z) <= (1 + z) * (H * dz ^ 2 * (11 / 4 + 2 * dz)).
Proof.
  intros Hn Hz. pose proof (Dof_accurate n z Hn Hz) as A. pose proof (DL_vs_Dc ho om orad ol HF dz Hdz n z Hn Hz) as B. fold H in B. pose proof H_pos as HP. pose proof (pow2_ge_0 dz) as D2.
  set (d := Dof ho om orad dz n z) in *. set (l := Lof ho om orad dz n z) in *. set (u := dist z) in *. set (k := H * dz ^ 2) in *. assert (0 <= k) by (apply Rmult_le_pos; lra).
  replace (H * dz ^ 2 / 4) with (k / 4) in B by (unfold k; field).
  replace (l - (1 + z) * u) with ((l - (1 + z) * d) + (1 + z) * (d - u)) by ring. apply Rle_trans with (1 := Rabs_triang _ _). rewrite Rabs_mult, (Rabs_right (1 + z)) by lra. rewrite Rabs_right by lra. 
  replace (k * (11 / 4 + 2 * dz)) with (k / 4 + k * (5 / 2 + 2 * dz)) by field. rewrite Rmult_plus_distr_l. apply Rplus_le_compat; [nra|]. apply Rmult_le_compat_l; lra.
Qed.
End Flat.

(** ** objects built by the constructor *)
Lemma table_second_order ho om orad ol zmax dz c : flat ho om orad ol -> 0 <= ol -> 0 < dz -> 0 < zmax ->
  make_cosmo (Fin ho) (Fin om) (Fin orad) (Fin ol) (Fin zmax) (Fin dz) = Ok c ->
  forall i, (i < length (cDc c))%nat -> exists d I, nth i (cDc c) NaN = Fin d /\ is_RInt (comoving_rate ho om orad) 0 (INR i * dz) I /\ Rabs (d - I) <= 2 * (light / ho) * dz ^ 2 * (1 + dz).
Proof.
  intros HF Hol Hdz Hz HC i Hi. destruct (made _ _ _ _ _ _ _ HF Hdz Hz HC) as (n & Hn & ->). rewrite cDc_tab in *. rewrite !map_length, seq_length in Hi.
  destruct (D_accurate ho om orad ol HF Hol dz Hdz i) as (I & HI & HE). exists (Dr ho om orad dz i), I. split; [|split; auto].
  rewrite (nth_indep _ NaN (Fin 0)) by (rewrite !map_length, seq_length; auto). rewrite map_nth, tab_nth; auto.
Qed.
Lemma made_accurate ho om orad ol zmax dz c : flat ho om orad ol -> 0 <= ol -> 0 < dz -> 0 < zmax ->
  make_cosmo (Fin ho) (Fin om) (Fin orad) (Fin ol) (Fin zmax) (Fin dz) = Ok c ->
  forall qs zl dl zs, table_end c zl dl -> zs <> [] -> (forall z, In z zs -> 0 <= z <= zl) ->
  let c1 := history c qs (Fin dz) in let H := light / ho in
  exists Dc DL, z2Dc c1 (map Fin zs) (Fin dz) = Ok (map Fin Dc, c1) /\ z2DL c1 (map Fin zs) (Fin dz) = Ok (map Fin DL, c1) /\
    dVcdz c1 (map Fin zs) (Fin dz) = Ok (map Fin (map2 (fun z d => 4 * PI * d ^ 2 * comoving_rate ho om orad z) zs Dc), c1) /\
    length Dc = length zs /\ length DL = length zs /\ forall i, (i < length zs)%nat -> exists I, is_RInt (comoving_rate ho om orad) 0 (nth i zs 0) I /\
      Rabs (nth i Dc 0 - I) <= H * dz ^ 2 * (5 / 2 + 2 * dz) /\ Rabs (nth i DL 0 - (1 + nth i zs 0) * I) <= (1 + nth i zs 0) * (H * dz ^ 2 * (11 / 4 + 2 * dz)).
Proof.
  intros HF Hol Hdz Hz HC qs zl dl zs T Hne Hin. destruct (made _ _ _ _ _ _ _ HF Hdz Hz HC) as (n & Hn & ->). apply table_end_tab in T; auto. destruct T as [-> ->].
  destruct (history_step _ _ _ _ HF dz Hdz qs n Hn) as (m & Hm & ->). cbn zeta. assert (Hm1 : (1 <= m)%nat) by lia.
  assert (Hin' : forall z, In z zs -> 0 <= z <= zi dz (m - 1)). { intros z Iz. specialize (Hin z Iz). pose proof (zi_mono dz Hdz (n - 1) (m - 1) ltac:(lia)). lra. }
  exists (map (Dof ho om orad dz m) zs), (map (Lof ho om orad dz m) zs). unfold dVcdz. rewrite z2Dc_in, z2DL_in by (auto; intros; apply Hin'; auto). cbn [rbind]. rewrite !map_length.
  split; [reflexivity|]. split; [reflexivity|]. split.
  { f_equal. f_equal. clear Hne. induction zs as [|z zs IH]; [reflexivity|]. cbn [map map2]. rewrite IH by (intros; (apply Hin || apply Hin'); right; auto).
    rewrite (dVcdz_real _ _ _ _ HF _ _ _ (table_params ho om orad ol dz m)) by (apply Hin'; left; auto). reflexivity. }
  split; [reflexivity|]. split; [reflexivity|]. intros i Hi. exists (RInt (comoving_rate ho om orad) 0 (nth i zs 0)).
  pose proof (Hin' (nth i zs 0) (nth_In _ _ Hi)) as Hzi. split; [apply (dist_int ho om orad ol HF); lra|].
  rewrite (nth_indep (map (Lof _ _ _ _ _) _) 0 (Lof ho om orad dz m 0)), (nth_indep (map (Dof _ _ _ _ _) _) 0 (Dof ho om orad dz m 0)) by (rewrite map_length; auto). rewrite !map_nth.
  split; [apply (Dof_accurate ho om orad ol HF Hol dz Hdz)|apply (Lof_accurate ho om orad ol HF Hol dz Hdz)]; auto.
Qed.
Lemma hubble_length_rate h om z : 0 < h -> 0 <= om -> 0 <= z -> comoving_rate (h / 1e-3) om 0 z = hubble_length h om z.
Proof.
  intros Hh Hom Hz. unfold comoving_rate, hubble_length, hubble, light. replace (1 - om - 0 + om * (1 + z) ^ 3 + 0 * (1 + z) ^ 4) with (om * (1 + z) ^ 3 + (1 - om)) by ring.
  assert (1 <= (1 + z) ^ 3) by (apply pow_R1_Rle; lra). assert (0 < sqrt (om * (1 + z) ^ 3 + (1 - om))) by (apply sqrt_lt_R0; nra).
  replace 299792.458 with (299792458 / 1000) by lra. replace 1e-3 with (1 / 1000) by lra. field. split; lra.
Qed.
Lemma distance_int h om z I : 0 < h -> 0 <= om -> 0 <= z -> is_RInt (comoving_rate (h / 1e-3) om 0) 0 z I -> comoving_distance h om z I.
Proof.
  intros Hh Hom Hz HI. apply (is_RInt_ext (comoving_rate (h / 1e-3) om 0)); auto. intros t Ht. rewrite Rmin_left in Ht by lra. apply hubble_length_rate; lra.
Qed.
Lemma points_10 : grid_points 10 DEFAULT_DZ (N.to_nat 10000).
Proof.
  unfold grid_points, DEFAULT_DZ. rewrite minus_INR by (apply Nat.leb_le; vm_compute; reflexivity). rewrite !INR_IZR_INZ, N_nat_Z. change (Z.of_nat 1) with 1%Z. change (Z.of_N 10000) with 10000%Z. split; [apply Nat.leb_le; vm_compute; reflexivity|]. lra.
Qed.

Lemma planck_any h om : 67 < h -> 0 <= om <= 1 -> exists c, default_cosmology (h / 1e-3) om 0 (1 - om) = Ok c /\ (exists far, table_end c 9.999 far) /\
  forall qs, let c1 := history c qs (Fin DEFAULT_DZ) in
  (forall zs, zs <> [] -> (forall z, In z zs -> 0 <= z <= 9.999) ->
   exists Dc DL, z2Dc c1 (map Fin zs) (Fin DEFAULT_DZ) = Ok (map Fin Dc, c1) /\ z2DL c1 (map Fin zs) (Fin DEFAULT_DZ) = Ok (map Fin DL, c1) /\
    dVcdz c1 (map Fin zs) (Fin DEFAULT_DZ) = Ok (map Fin (map2 (fun z d => 4 * PI * d ^ 2 * hubble_length h om z) zs Dc), c1) /\
    length Dc = length zs /\ length DL = length zs /\ forall i, (i < length zs)%nat -> exists d, comoving_distance h om (nth i zs 0) d /\
      Rabs (nth i Dc 0 - d) <= tolerance /\ Rabs (nth i DL 0 - (1 + nth i zs 0) * d) <= (1 + nth i zs 0) * tolerance) /\
  (forall far ds, table_end c 9.999 far -> ds <> [] -> (forall d, In d ds -> 0 <= d <= far) ->
   exists zs, DL2z c1 (map Fin ds) (Fin DEFAULT_DZ) = Ok (map Fin zs, c1) /\ length zs = length ds /\
    forall i, (i < length ds)%nat -> 0 <= nth i zs 0 <= 9.999 /\ exists d, comoving_distance h om (nth i zs 0) d /\ Rabs (nth i ds 0 - (1 + nth i zs 0) * d) <= (1 + nth i zs 0) * tolerance).
Proof.
  intros Hh Hom. set (ho := h / 1e-3). assert (Hho : 67000 < ho) by (unfold ho; lra).
  assert (HF : flat ho om 0 (1 - om)) by (unfold flat; lra). assert (Hol : 0 <= 1 - om) by lra. assert (Hdz : 0 < DEFAULT_DZ) by (unfold DEFAULT_DZ; lra).
  pose proof (make_table _ _ _ _ HF DEFAULT_DZ Hdz 10 _ points_10) as HC. set (n := N.to_nat 10000) in *. exists (table ho om 0 (1 - om) DEFAULT_DZ n). split; [exact HC|].
  assert (Hn : (1 <= n)%nat) by (apply Nat.leb_le; vm_compute; reflexivity).
  assert (ZE : zi DEFAULT_DZ (n - 1) = 9.999).
  { unfold zi, DEFAULT_DZ, n. rewrite minus_INR by (apply Nat.leb_le; vm_compute; reflexivity). rewrite !INR_IZR_INZ, N_nat_Z. change (Z.of_nat 1) with 1%Z. change (Z.of_N 10000) with 10000%Z. lra. }
  assert (TE : table_end (table ho om 0 (1 - om) DEFAULT_DZ n) 9.999 (L ho om 0 DEFAULT_DZ (n - 1))) by (apply table_end_tab; auto).
  split; [eauto|]. intros qs.
  assert (BT : light / ho * DEFAULT_DZ ^ 2 * (11 / 4 + 2 * DEFAULT_DZ) <= tolerance).
  { assert (light / ho <= 4475). { apply Rmult_le_reg_r with ho; [lra|]. unfold Rdiv. rewrite Rmult_assoc, Rinv_l by lra. unfold light. lra. }
    unfold DEFAULT_DZ, tolerance. lra. }
  pose proof (coH_pos _ _ _ _ HF) as HP.
  assert (BT0 : light / ho * DEFAULT_DZ ^ 2 * (5 / 2 + 2 * DEFAULT_DZ) <= tolerance).
  { apply Rle_trans with (2 := BT). apply Rmult_le_compat_l; [apply Rmult_le_pos; [lra|apply pow2_ge_0]|lra]. }
  assert (FWD : forall zs, zs <> [] -> (forall z, In z zs -> 0 <= z <= 9.999) -> let c1 := history (table ho om 0 (1 - om) DEFAULT_DZ n) qs (Fin DEFAULT_DZ) in
   exists Dc DL, z2Dc c1 (map Fin zs) (Fin DEFAULT_DZ) = Ok (map Fin Dc, c1) /\ z2DL c1 (map Fin zs) (Fin DEFAULT_DZ) = Ok (map Fin DL, c1) /\
    dVcdz c1 (map Fin zs) (Fin DEFAULT_DZ) = Ok (map Fin (map2 (fun z d => 4 * PI * d ^ 2 * hubble_length h om z) zs Dc), c1) /\
    length Dc = length zs /\ length DL = length zs /\ forall i, (i < length zs)%nat -> exists d, comoving_distance h om (nth i zs 0) d /\
      Rabs (nth i Dc 0 - d) <= tolerance /\ Rabs (nth i DL 0 - (1 + nth i zs 0) * d) <= (1 + nth i zs 0) * tolerance).
  { intros zs Hne Hin c1. destruct (made_accurate _ _ _ _ _ _ _ HF Hol Hdz (ltac:(lra) : 0 < 10) HC qs _ _ zs TE Hne Hin) as (Dc & DL & E1 & E2 & E3 & L1 & L2 & A). exists Dc, DL.
    split; [exact E1|]. split; [exact E2|]. split.
    { etransitivity; [exact E3|]. f_equal. f_equal. f_equal. clear - Hin Hh Hom. revert Dc. induction zs as [|z zs IH]; intros [|d Dc]; auto. cbn [map2]. rewrite IH by (intros; apply Hin; right; auto).
      f_equal. f_equal. apply hubble_length_rate; try lra. apply Hin. left. auto. }
    split; [auto|]. split; [auto|]. intros i Hi. pose proof (Hin _ (nth_In zs 0 Hi)) as Hzi. destruct (A i Hi) as (I & HI & B1 & B2). exists I. split; [apply distance_int; auto; lra|]. split; [lra|].
    apply Rle_trans with (1 := B2). apply Rmult_le_compat_l; lra. }
  split; [exact FWD|]. intros far ds T Hne Hin. apply table_end_tab in T; auto. destruct T as [_ ->].
  destruct (history_step _ _ _ _ HF DEFAULT_DZ Hdz qs n Hn) as (m & Hm & EH). cbn zeta. rewrite EH in *. assert (Hm1 : (1 <= m)%nat) by lia.
  assert (LM : L ho om 0 DEFAULT_DZ (n - 1) <= L ho om 0 DEFAULT_DZ (m - 1)) by (eapply L_mono; eauto; lia).
  rewrite (DL2z_in ho om 0 (1 - om) HF DEFAULT_DZ Hdz m ds) by (auto; intros d Id; specialize (Hin d Id); lra).
  eexists. split; [reflexivity|]. rewrite map_length. split; [auto|]. intros i Hi. pose proof (Hin _ (nth_In ds 0 Hi)) as Hd.
  rewrite (nth_indep (map (Zof _ _ _ _ _) _) 0 (Zof ho om 0 DEFAULT_DZ m 0)) by (rewrite map_length; auto). rewrite map_nth. set (d := nth i ds 0) in *.
  assert (ZP : Zof ho om 0 DEFAULT_DZ m d = Zof ho om 0 DEFAULT_DZ n d) by (eapply Zof_prefix; eauto; lra).
  assert (LZ : Lof ho om 0 DEFAULT_DZ m (Zof ho om 0 DEFAULT_DZ m d) = d) by (eapply L_Z; eauto; lra).
  pose proof (Zof_range ho om 0 (1 - om) HF DEFAULT_DZ Hdz n d Hn) as ZR. rewrite <- ZP, ZE in ZR. set (z := Zof ho om 0 DEFAULT_DZ m d) in *. split; [exact ZR|].
  exists (RInt (comoving_rate ho om 0) 0 z). split; [apply distance_int; try lra; apply (dist_int ho om 0 (1 - om) HF); lra|].
  pose proof (Lof_accurate ho om 0 (1 - om) HF Hol DEFAULT_DZ Hdz m z Hm1) as A. rewrite LZ in A. eapply Rle_trans; [apply A|apply Rmult_le_compat_l; lra].
  pose proof (zi_mono DEFAULT_DZ Hdz (n - 1) (m - 1) ltac:(lia)). lra.
Qed.

Lemma planck_lvk : PLANCK_2015_LVK_Cosmology = default_cosmology (67.90 / 1e-3) 0.3065 0 (1 - 0.3065).
Proof.
  unfold PLANCK_2015_LVK_Cosmology. apply f_equal4; unfold PLANCK_2015_LVK_Ho, PLANCK_2015_LVK_OmegaMatter, PLANCK_2015_LVK_OmegaRadiation, PLANCK_2015_OmegaRadiation, PLANCK_2015_LVK_OmegaLambda, PLANCK_2015_LVK_OmegaMatter; lra.
Qed.
Lemma planck_2015 : PLANCK_2015_Cosmology = default_cosmology (67.74 / 1e-3) 0.3089 0 (1 - 0.3089).
Proof.
  unfold PLANCK_2015_Cosmology. apply f_equal4; unfold PLANCK_2015_Ho, PLANCK_2015_OmegaMatter, PLANCK_2015_OmegaRadiation, PLANCK_2015_OmegaLambda, PLANCK_2015_OmegaMatter; lra.
Qed.
Lemma planck_distances obj h om : obj = PLANCK_2015_LVK_Cosmology /\ h = 67.90 /\ om = 0.3065 \/ obj = PLANCK_2015_Cosmology /\ h = 67.74 /\ om = 0.3089 ->
  exists c, obj = Ok c /\ forall qs zs, zs <> [] -> (forall z, In z zs -> 0 <= z <= 9.999) -> let c1 := history c qs (Fin DEFAULT_DZ) in
   exists Dc DL, z2Dc c1 (map Fin zs) (Fin DEFAULT_DZ) = Ok (map Fin Dc, c1) /\ z2DL c1 (map Fin zs) (Fin DEFAULT_DZ) = Ok (map Fin DL, c1) /\
    dVcdz c1 (map Fin zs) (Fin DEFAULT_DZ) = Ok (map Fin (map2 (fun z d => 4 * PI * d ^ 2 * hubble_length h om z) zs Dc), c1) /\
    length Dc = length zs /\ length DL = length zs /\ forall i, (i < length zs)%nat -> exists d, comoving_distance h om (nth i zs 0) d /\
      Rabs (nth i Dc 0 - d) <= tolerance /\ Rabs (nth i DL 0 - (1 + nth i zs 0) * d) <= (1 + nth i zs 0) * tolerance.
Proof.
  intros [(-> & -> & ->)|(-> & -> & ->)]; [rewrite planck_lvk; destruct (planck_any 67.90 0.3065) as (c & E & _ & A); [lra|lra|]|rewrite planck_2015; destruct (planck_any 67.74 0.3089) as (c & E & _ & A); [lra|lra|]];
    exists c; (split; [exact E|]); intros qs; apply (A qs).
Qed.
Lemma planck_redshifts obj h om : obj = PLANCK_2015_LVK_Cosmology /\ h = 67.90 /\ om = 0.3065 \/ obj = PLANCK_2015_Cosmology /\ h = 67.74 /\ om = 0.3089 ->
  exists c far, obj = Ok c /\ table_end c 9.999 far /\ forall qs ds, ds <> [] -> (forall d, In d ds -> 0 <= d <= far) -> let c1 := history c qs (Fin DEFAULT_DZ) in
   exists zs, DL2z c1 (map Fin ds) (Fin DEFAULT_DZ) = Ok (map Fin zs, c1) /\ length zs = length ds /\
    forall i, (i < length ds)%nat -> 0 <= nth i zs 0 <= 9.999 /\ exists d, comoving_distance h om (nth i zs 0) d /\ Rabs (nth i ds 0 - (1 + nth i zs 0) * d) <= (1 + nth i zs 0) * tolerance.
Proof.
  intros [(-> & -> & ->)|(-> & -> & ->)]; [rewrite planck_lvk; destruct (planck_any 67.90 0.3065) as (c & E & (far & F) & A); [lra|lra|]|rewrite planck_2015; destruct (planck_any 67.74 0.3089) as (c & E & (far & F) & A); [lra|lra|]];
    exists c, far; (split; [exact E|]); (split; [exact F|]); intros qs ds; apply (A qs); auto.
Qed.
