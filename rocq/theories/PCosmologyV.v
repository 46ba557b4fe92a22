(** Distances and volumes: DL = (1+z) Dc, the volume element, and Vc against the volume of a ball of radius Dc. *)
From Coq Require Import Lia Lra.
From Verif Require Import PCollectPrior.
From Verif Require Export PCosmologyR.
From Verif Require Export Spec.
Open Scope R_scope.

Section Flat.
Variables ho om orad ol : R.
Hypothesis HF : flat ho om orad ol.
Variable dz : R.
Hypothesis Hdz : 0 < dz.
Let f := comoving_rate ho om orad.
Notation D := (Dr ho om orad dz).
Notation V := (Vr ho om orad dz).
Notation tab := (table ho om orad ol dz).
Notation zi := (zi dz).
Let H := light / ho.

Lemma segment n z : (1 <= n)%nat -> 0 <= z <= zi (n - 1) -> (n = 1%nat /\ z = 0) \/ exists i, (S i < n)%nat /\ zi i <= z <= zi (S i).
Proof.
  intros Hn. induction n as [|n IH]; [lia|]. intros Hz. destruct n as [|n]; [left; cbn [Nat.sub] in Hz; rewrite zi_0 in Hz; split; auto; lra|].
  replace (S (S n) - 1)%nat with (S n) in Hz by lia. destruct (Rle_dec z (zi n)) as [Hle|Hgt].
  - destruct IH as [[A B]|(i & Hi & B)]; [lia|replace (S n - 1)%nat with n by lia; lra| |].
    + right. exists 0%nat. subst z. rewrite zi_0. pose proof (zi_step dz Hdz 0). rewrite zi_0 in *. split; [lia|lra].
    + right. exists i. split; [lia|auto].
  - right. exists n. split; [lia|lra].
Qed.
Lemma interp_seg g n i z : (S i < n)%nat -> zi i <= z <= zi (S i) ->
  rinterp z (map zi (seq 0 n)) (map g (seq 0 n)) = g i + (z - zi i) / dz * (g (S i) - g i).
Proof.
  intros Hi Hz. destruct (rinterp_linear (map zi (seq 0 n)) (map g (seq 0 n))) as (_ & _ & _ & S0); [apply tab_ne; lia|apply tab_len|apply zinc; auto|].
  rewrite (S0 i z); rewrite ?map_length, ?seq_length; auto; rewrite !tab_nth by lia; auto.
  replace (zi (S i) - zi i) with dz; [reflexivity|]. unfold PCosmologyQ.zi. rewrite S_INR. ring.
Qed.
(** the table interpolates (1+z) Dc from above *)
Lemma DL_vs_Dc n z : (1 <= n)%nat -> 0 <= z <= zi (n - 1) ->
  0 <= Lof ho om orad dz n z - (1 + z) * Dof ho om orad dz n z <= H * dz ^ 2 / 4.
Proof.
  intros Hn Hz. assert (HH : 0 < H) by (apply (coH_pos ho om orad ol HF)). destruct (segment n z Hn Hz) as [[-> ->]|(i & Hi & Hzi)].
  - unfold Lof, Dof. cbn [seq map]. rewrite !rinterp_left by (cbn; auto; rewrite zi_0; lra). unfold L. cbn. nra.
  - unfold Lof, Dof. rewrite !(interp_seg _ n i) by auto. unfold L. 
    assert (E : INR (S i) * dz = zi i + dz) by (unfold PCosmologyQ.zi; rewrite S_INR; ring). rewrite E.
    change (INR i * dz) with (zi i). set (t := (z - zi i) / dz).
    assert (Ht : 0 <= t <= 1).
    { unfold t. assert (zi (S i) = zi i + dz) by exact E. split; [apply Rmult_le_pos; [lra|left; apply Rinv_0_lt_compat; auto]|].
      apply Rmult_le_reg_r with dz; auto. unfold Rdiv. rewrite Rmult_assoc, Rinv_l by lra. lra. }
    assert (Hz2 : z = zi i + t * dz) by (unfold t; field; lra). clearbody t. subst z.
    pose proof (D_step ho om orad ol HF dz Hdz i) as DS.
    assert (DB : D (S i) - D i <= H * dz).
    { rewrite D_S. pose proof (z_nonneg dz Hdz i). pose proof (f_le _ _ _ _ HF (INR i * dz) ltac:(lra)). pose proof (f_le _ _ _ _ HF (INR i * dz + dz) ltac:(lra)).
      unfold H. nra. }
    set (d0 := D i) in *. set (d1 := D (S i)) in *.
    replace (d0 * (1 + zi i) + t * (d1 * (1 + (zi i + dz)) - d0 * (1 + zi i)) - (1 + (zi i + t * dz)) * (d0 + t * (d1 - d0)))
      with (t * (1 - t) * (dz * (d1 - d0))) by ring.
    assert (T : 0 <= t * (1 - t) <= 1 / 4) by (split; [nra|]; pose proof (pow2_ge_0 (t - 1 / 2)); nra).
    assert (Q : 0 <= dz * (d1 - d0) <= H * dz ^ 2) by (split; [nra|]; replace (H * dz ^ 2) with (dz * (H * dz)) by ring; apply Rmult_le_compat_l; lra).
    nra.
Qed.
(** the volume table against the volume of a ball *)
Lemma V_error i : Rabs (V i - 4 / 3 * PI * D i ^ 3) <= 2 * PI / 3 * (H * dz ^ 2) * (3 * D i * (H - f (INR i * dz)) + H * D i).
Proof.
  assert (HH : 0 < H) by (apply (coH_pos ho om orad ol HF)). pose proof PI_RGT_0 as HPI.
  induction i as [|i IH].
  - cbn. rewrite Rabs_right; nra.
  - change (V (S i)) with (V i + 1 / 2 * (4 * PI * D i ^ 2 * f (INR i * dz) + 4 * PI * D (S i) ^ 2 * f (INR i * dz + dz)) * dz).
    rewrite z_S. pose proof (z_nonneg dz Hdz i) as Z0.
    pose proof (f_pos _ _ _ _ HF (INR i * dz) ltac:(lra)) as P1. pose proof (f_pos _ _ _ _ HF (INR i * dz + dz) ltac:(lra)) as P2.
    pose proof (f_le _ _ _ _ HF (INR i * dz) ltac:(lra)) as U1. pose proof (f_decr _ _ _ _ HF (INR i * dz) (INR i * dz + dz) ltac:(lra) ltac:(lra)) as U2.
    pose proof (D_S ho om orad dz i) as DS. pose proof (D_nonneg ho om orad ol HF dz Hdz i) as D0.
    fold f in P1, P2, U1, U2, DS. fold H in U1.
    set (a := f (INR i * dz)) in *. set (b := f (INR i * dz + dz)) in *. set (d := D i) in *. set (d' := D (S i)) in *.
    set (e := 1 / 2 * (a + b) * dz) in DS. assert (He : 0 < e <= H * dz) by (unfold e; nra).
    replace (V i + 1 / 2 * (4 * PI * d ^ 2 * a + 4 * PI * d' ^ 2 * b) * dz - 4 / 3 * PI * d' ^ 3)
      with ((V i - 4 / 3 * PI * d ^ 3) + 2 * PI / 3 * dz * (3 * d * e * (b - a) + e ^ 2 * (2 * b - a))).
    2:{ rewrite DS. assert (E : dz * (a + b) = 2 * e) by (unfold e; field).
        apply Rminus_diag_uniq. 
        replace (V i - 4 / 3 * PI * d ^ 3 + 2 * PI / 3 * dz * (3 * d * e * (b - a) + e ^ 2 * (2 * b - a)) - (V i + 1 / 2 * (4 * PI * d ^ 2 * a + 4 * PI * (d + e) ^ 2 * b) * dz - 4 / 3 * PI * (d + e) ^ 3))
          with (2 / 3 * PI * (3 * d ^ 2 + 3 * d * e + e ^ 2) * (2 * e - dz * (a + b))) by field.
        rewrite E. ring. }
    eapply Rle_trans; [apply Rabs_triang|]. 
    assert (K : Rabs (2 * PI / 3 * dz * (3 * d * e * (b - a) + e ^ 2 * (2 * b - a))) <= 2 * PI / 3 * dz * (3 * d * (H * dz) * (a - b) + e * (H * dz) * H)).
    { rewrite Rabs_mult, (Rabs_right (2 * PI / 3 * dz)) by nra. apply Rmult_le_compat_l; [nra|].
      eapply Rle_trans; [apply Rabs_triang|]. apply Rplus_le_compat.
      - rewrite Rabs_mult, (Rabs_right (3 * d * e)) by nra. rewrite Rabs_minus_sym, Rabs_right by lra.
        apply Rmult_le_compat_r; [lra|]. nra.
      - rewrite Rabs_mult, Rabs_right by nra. replace (e ^ 2) with (e * e) by ring.
        apply Rmult_le_compat; [nra|apply Rabs_pos|nra|]. apply Rabs_le. lra. }
    eapply Rle_trans; [apply Rplus_le_compat; [exact IH|exact K]|].
    rewrite DS. fold d. 
    assert (F : 0 <= H - b) by lra.
    replace (2 * PI / 3 * (H * dz ^ 2) * (3 * (d + e) * (H - b) + H * (d + e)))
      with (2 * PI / 3 * (H * dz ^ 2) * (3 * d * (H - a) + H * d) + 2 * PI / 3 * dz * (3 * d * (H * dz) * (a - b) + e * (H * dz) * H)
            + 2 * PI / 3 * (H * dz ^ 2) * (3 * e * (H - b))) by ring.
    assert (0 <= 2 * PI / 3 * (H * dz ^ 2) * (3 * e * (H - b))).
    { apply Rmult_le_pos; [|nra]. apply Rmult_le_pos; [lra|]. apply Rmult_le_pos; [lra|]. apply pow2_ge_0. }
    lra.
Qed.
Lemma V_error_bound i : Rabs (V i - 4 / 3 * PI * D i ^ 3) <= 8 / 3 * PI * (H * dz) ^ 2 * D i.
Proof.
  eapply Rle_trans; [apply V_error|]. pose proof PI_RGT_0. assert (HH : 0 < H) by (apply (coH_pos ho om orad ol HF)).
  pose proof (z_nonneg dz Hdz i) as Z0. pose proof (f_pos _ _ _ _ HF (INR i * dz) ltac:(lra)) as P1. fold f in P1. pose proof (D_nonneg ho om orad ol HF dz Hdz i) as D0.
  replace (8 / 3 * PI * (H * dz) ^ 2 * D i) with (2 * PI / 3 * (H * dz ^ 2) * (4 * H * D i)) by field.
  apply Rmult_le_compat_l; [apply Rmult_le_pos; [lra|]; apply Rmult_le_pos; [lra|apply pow2_ge_0]|].
  nra.
Qed.
End Flat.

Section Made.
Variables ho om orad ol zmax dz : R.
Variable c : cosmo.
Hypothesis HF : flat ho om orad ol.
Hypothesis Hdz : 0 < dz.
Hypothesis Hz : 0 < zmax.
Hypothesis HC : make_cosmo (Fin ho) (Fin om) (Fin orad) (Fin ol) (Fin zmax) (Fin dz) = Ok c.

Lemma made_DL_table i : (i < length (cz c))%nat -> exists z d, nth i (cz c) NaN = Fin z /\ nth i (cDc c) NaN = Fin d /\ nth i (cDL c) NaN = Fin ((1 + z) * d).
Proof.
  destruct (made _ _ _ _ _ _ _ HF Hdz Hz HC) as (n & Hn & ->). rewrite cz_tab, cDc_tab, cDL_tab, !map_length, seq_length. intros Hi.
  exists (zi dz i), (Dr ho om orad dz i). 
  assert (T : forall g, nth i (map Fin (map g (seq 0 n))) NaN = Fin (g i)).
  { intros g. rewrite (nth_indep _ NaN (Fin 0)) by (rewrite !map_length, seq_length; auto). rewrite map_nth, tab_nth; auto. }
  rewrite !T. repeat split. unfold L. change (INR i * dz) with (zi dz i). f_equal. ring.
Qed.
Lemma made_DL zs step zl dl : table_end c zl dl -> zs <> [] -> (forall z, In z zs -> 0 <= z <= zl) ->
  exists Ds Ls, z2Dc c (map Fin zs) step = Ok (map Fin Ds, c) /\ z2DL c (map Fin zs) step = Ok (map Fin Ls, c) /\
    length Ds = length zs /\ length Ls = length zs /\
    forall i, (i < length zs)%nat -> 0 <= nth i Ls 0 - (1 + nth i zs 0) * nth i Ds 0 <= light / ho * dz ^ 2 / 4.
Proof.
  destruct (made _ _ _ _ _ _ _ HF Hdz Hz HC) as (n & Hn & ->). intros T Hne Hin. apply table_end_tab in T; auto. destruct T as [-> ->].
  exists (map (Dof ho om orad dz n) zs), (map (Lof ho om orad dz n) zs). 
  rewrite z2Dc_in, z2DL_in by (auto; intros; apply Hin; auto). rewrite !map_length. repeat split; auto; 
  rewrite (nth_indep (map (Lof _ _ _ _ _) _) 0 (Lof ho om orad dz n 0)), (nth_indep (map (Dof _ _ _ _ _) _) 0 (Dof ho om orad dz n 0)) by (rewrite map_length; auto);
  rewrite !map_nth; eapply DL_vs_Dc; eauto; apply Hin, nth_In; auto.
Qed.
Lemma made_volume i : (i < length (cz c))%nat -> exists d v, nth i (cDc c) NaN = Fin d /\ nth i (cVc c) NaN = Fin v /\
  Rabs (v - 4 / 3 * PI * d ^ 3) <= 8 / 3 * PI * (light / ho * dz) ^ 2 * d.
Proof.
  destruct (made _ _ _ _ _ _ _ HF Hdz Hz HC) as (n & Hn & ->). rewrite cz_tab, cDc_tab, !map_length, seq_length. intros Hi.
  exists (Dr ho om orad dz i), (Vr ho om orad dz i). unfold table. cbn [cVc].
  assert (T : forall g, nth i (map Fin (map g (seq 0 n))) NaN = Fin (g i)).
  { intros g. rewrite (nth_indep _ NaN (Fin 0)) by (rewrite !map_length, seq_length; auto). rewrite map_nth, tab_nth; auto. }
  rewrite !T. repeat split. eapply V_error_bound; eauto.
Qed.
Lemma made_element zs : zs <> [] -> (forall z, In z zs -> 0 <= z) ->
  exists Ds c', z2Dc c (map Fin zs) (Fin dz) = Ok (map Fin Ds, c') /\ 
    dVcdz c (map Fin zs) (Fin dz) = Ok (map Fin (map2 (fun z d => 4 * PI * d ^ 2 * comoving_rate ho om orad z) zs Ds), c').
Proof.
  intros Hne Hpos. destruct (max_ok ho om orad ol zmax dz c HF Hdz Hz HC zs Hne) as [c' E]. unfold dVcdz, z2Dc. rewrite E. cbn [rbind].
  destruct (made _ _ _ _ _ _ _ HF Hdz Hz HC) as (n & Hn & EC). rewrite EC in E. destruct (ext_step ho om orad ol HF dz Hdz n _ _ Hn E) as (m & Hm & E').
  rewrite E'. rewrite interp_D by auto. exists (map (Dof ho om orad dz m) zs), (table ho om orad ol dz m). split; auto. do 2 f_equal.
  clear E Hne. induction zs as [|z zs IH]; [reflexivity|]. cbn [map map2]. 
  rewrite (dVcdz_real _ _ _ _ HF _ _ _ (table_params ho om orad ol dz m)) by (apply Hpos; left; auto). f_equal. apply IH. intros; apply Hpos; right; auto.
Qed.
End Made.

Lemma not_flat_raises ho om orad ol zmax dz : om + orad + ol <> 1 -> make_cosmo (Fin ho) (Fin om) (Fin orad) (Fin ol) zmax dz = Err AssertionError.
Proof.
  intros Hf. unfold make_cosmo, OmegaKappa. cbn [OmegaMatter OmegaRadiation OmegaLambda]. rewrite !nadd_fin, nsub_fin. cbn [neqb].
  unfold Reqb. destruct (Req_EM_T _ _); auto. exfalso. apply Hf. lra.
Qed.
