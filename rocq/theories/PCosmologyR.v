(** The cosmology properties, stated for objects built by the constructor. *)
From Verif Require Export PCosmologyQ SpecCosmologyQ.
From Verif Require Export Spec.
Open Scope R_scope.

Lemma made ho om orad ol zmax dz c : flat ho om orad ol -> 0 < dz -> 0 < zmax -> make_cosmo (Fin ho) (Fin om) (Fin orad) (Fin ol) (Fin zmax) (Fin dz) = Ok c ->
  exists n, (1 <= n)%nat /\ c = table ho om orad ol dz n.
Proof.
  intros HF Hdz Hz H. destruct (points_exist dz Hdz zmax Hz) as [n Hn]. rewrite (make_table _ _ _ _ HF dz Hdz zmax n Hn) in H. injection H as <-. exists n. split; auto. apply Hn.
Qed.
Lemma last_fin l : l <> [] -> last (map Fin l) NaN = Fin (last l 0).
Proof.
  induction l as [|a l IH]; [congruence|]. intros _. destruct l as [|b l]; [reflexivity|]. change (last (map Fin (b :: l)) NaN = Fin (last (b :: l) 0)). apply IH. discriminate.
Qed.
Lemma table_end_tab ho om orad ol dz n z d : (1 <= n)%nat -> table_end (table ho om orad ol dz n) z d <-> z = zi dz (n - 1) /\ d = L ho om orad dz (n - 1).
Proof.
  intros Hn. unfold table_end. rewrite cz_tab, cDL_tab, !last_fin, !tab_last by (auto; apply tab_ne; auto). split.
  - intros [A B]. injection A as <-. injection B as <-. auto.
  - intros [-> ->]. auto.
Qed.

Section Made.
Variables ho om orad ol zmax dz : R.
Variable c : cosmo.
Hypothesis HF : flat ho om orad ol.
Hypothesis Hdz : 0 < dz.
Hypothesis Hz : 0 < zmax.
Hypothesis HC : make_cosmo (Fin ho) (Fin om) (Fin orad) (Fin ol) (Fin zmax) (Fin dz) = Ok c.

Lemma round_trip step : exists zl dl, table_end c zl dl /\
  (forall zs, zs <> [] -> (forall z, In z zs -> 0 <= z <= zl) ->
    exists ds, z2DL c (map Fin zs) step = Ok (map Fin ds, c) /\ DL2z c (map Fin ds) step = Ok (map Fin zs, c)) /\
  (forall ds, ds <> [] -> (forall d, In d ds -> 0 <= d <= dl) ->
    exists zs, DL2z c (map Fin ds) step = Ok (map Fin zs, c) /\ z2DL c (map Fin zs) step = Ok (map Fin ds, c)).
Proof.
  destruct (made _ _ _ _ _ _ _ HF Hdz Hz HC) as (n & Hn & ->). exists (zi dz (n - 1)), (L ho om orad dz (n - 1)).
  split; [apply table_end_tab; auto|]. apply round_trip_tab; auto.
Qed.
Lemma history_free qs q : inside c q -> exists ans c', ask c q (Fin dz) = Ok (ans, c) /\ ask (history c qs (Fin dz)) q (Fin dz) = Ok (ans, c').
Proof.
  destruct (made _ _ _ _ _ _ _ HF Hdz Hz HC) as (n & Hn & ->). intros (z & d & E & Q). apply table_end_tab in E; auto. destruct E as [-> ->].
  destruct (history_step _ _ _ _ HF dz Hdz qs n Hn) as (m & Hm & ->). destruct (same_answer _ _ _ ol HF dz Hdz n m q Hn Hm) as (ans & A1 & A2); [|eauto].
  destruct q; exact Q.
Qed.
Lemma beyond_bound z : (forall w d, table_end c w d -> w < z) -> exists d c' I, z2Dc c (Fin z :: nil) (Fin dz) = Ok (Fin d :: nil, c') /\
  is_RInt (comoving_rate ho om orad) 0 z I /\ Rabs (d - I) <= 3 / 2 * (light / ho * dz).
Proof.
  destruct (made _ _ _ _ _ _ _ HF Hdz Hz HC) as (n & Hn & ->). intros H. apply (beyond_error ho om orad ol HF dz Hdz n); auto. apply (H _ (L ho om orad dz (n - 1))), table_end_tab; auto.
Qed.
Lemma beyond_clamped z : (forall w d, table_end c w d -> w < z) -> exists d c' w, z2Dc c (Fin z :: nil) (Fin dz) = Ok (Fin d :: nil, c') /\
  w < z /\ z2Dc c' (Fin w :: nil) (Fin dz) = Ok (Fin d :: nil, c').
Proof.
  destruct (made _ _ _ _ _ _ _ HF Hdz Hz HC) as (n & Hn & ->). intros H. destruct (beyond ho om orad ol HF dz Hdz n z Hn) as (m & _ & _ & G & _ & A & _ & B).
  { apply (H _ (L ho om orad dz (n - 1))), table_end_tab; auto. }
  exists (Dr ho om orad dz (m - 1)), (table ho om orad ol dz m), (zi dz (m - 1)). split; auto. split; auto. apply G.
Qed.
Lemma beyond_moves z : (forall w d, table_end c w d -> w < z) -> exists d d' c1 c2 c3, z2Dc c (Fin z :: nil) (Fin dz) = Ok (Fin d :: nil, c1) /\
  c2 = history c1 [Qz2Dc (Fin (z + dz) :: nil)] (Fin dz) /\ z2Dc c2 (Fin z :: nil) (Fin dz) = Ok (Fin d' :: nil, c3) /\ d < d'.
Proof.
  destruct (made _ _ _ _ _ _ _ HF Hdz Hz HC) as (n & Hn & ->). intros H. apply (beyond_changes ho om orad ol HF dz Hdz n); auto. apply (H _ (L ho om orad dz (n - 1))), table_end_tab; auto.
Qed.
Lemma beyond_distance ds step : (forall w e, table_end c w e -> exists d, In d ds /\ e < d) -> DL2z c (map Fin ds) step = Err TypeError.
Proof.
  destruct (made _ _ _ _ _ _ _ HF Hdz Hz HC) as (n & Hn & ->). intros H. apply (DL2z_out ho om orad ol HF dz Hdz); auto. apply (H (zi dz (n - 1))), table_end_tab; auto.
Qed.

(** logdVcdz is the logarithm of dVcdz *)
Lemma max_ok zs : zs <> [] -> exists c', maybe_extend c (map Fin zs) (Fin dz) = Ok c'.
Proof.
  destruct (made _ _ _ _ _ _ _ HF Hdz Hz HC) as (n & Hn & ->). intros Hne. destruct (amax_fin zs Hne) as (m & E & _). unfold maybe_extend. rewrite E. cbn [rbind].
  rewrite cz_tab, amax_incr by (try apply tab_ne; auto using zinc). cbn [rbind]. rewrite tab_last by auto. unfold ngt, nlt. rcase; [|eauto].
  destruct (points_exist dz Hdz m) as [k Hk]; [pose proof (zi_mono dz Hdz 0 (n - 1) ltac:(lia)) as Q0; rewrite zi_0 in Q0; lra|].
  rewrite (extend_table _ _ _ _ HF dz Hdz (table ho om orad ol dz n) m k (table_params _ _ _ _ _ n) Hk). eauto.
Qed.
Lemma log_volume_at n z d : 0 <= z -> 0 <= d -> logdVcdz_of (table ho om orad ol dz n) (Fin z) (Fin d) = nlog (dVcdz_of (table ho om orad ol dz n) (Fin z) (Fin d)) /\
  exists r, dVcdz_of (table ho om orad ol dz n) (Fin z) (Fin d) = Fin r /\ 0 <= r /\ (0 < d -> 0 < r).
Proof.
  intros Hz0 Hd. pose proof (table_params ho om orad ol dz n) as TP. rewrite (dVcdz_real _ _ _ _ HF _ _ _ TP) by auto. unfold logdVcdz_of. rewrite (dDcdz_real _ _ _ _ HF _ _ TP) by auto.
  pose proof (f_pos _ _ _ _ HF z Hz0) as F. pose proof PI_RGT_0. rewrite nmul_fin.
  assert (P : 0 < d -> 0 < 4 * PI * d ^ 2 * comoving_rate ho om orad z).
  { intros Hd0. apply Rmult_lt_0_compat; auto. apply Rmult_lt_0_compat; [lra|]. apply pow_lt; auto. }
  split.
  - destruct (Req_dec d 0) as [->|Hd0].
    + replace (4 * PI * 0 ^ 2 * comoving_rate ho om orad z) with 0 by ring. rewrite nlog_zero, !nlog_fin by lra.
      cbn [nmul]. unfold sinf. rewrite Rltb_t by lra. reflexivity.
    + unfold nlog. rewrite (Rltb_t 0 (4 * PI)), (Rltb_t 0 (comoving_rate ho om orad z)), (Rltb_t 0 d) by lra. rewrite Rltb_t by (apply P; lra).
      rewrite nmul_fin, !nadd_fin. apply (f_equal Fin). assert (Hd1 : 0 < d) by lra. assert (Hd2 : 0 < d ^ 2) by (apply pow_lt; auto).
      rewrite (ln_mult (4 * PI * d ^ 2)); [|apply Rmult_lt_0_compat; lra|auto]. rewrite (ln_mult (4 * PI)) by lra.
      cbn [pow]. rewrite Rmult_1_r, (ln_mult d d) by lra. ring.
  - eexists. split; [reflexivity|]. split; auto. destruct (Req_dec d 0) as [->|Hd0]; [apply Req_le; ring|]. left. apply P. lra.
Qed.
Lemma Dof_nonneg n z : (1 <= n)%nat -> 0 <= Dof ho om orad dz n z.
Proof.
  intros Hn. apply rinterp_nonneg; [apply zinc; auto|]. intros y Hy. apply in_map_iff in Hy. destruct Hy as (i & <- & _). eapply D_nonneg; eauto.
Qed.
Lemma Dof_pos n z : (2 <= n)%nat -> 0 < z -> 0 < Dof ho om orad dz n z.
Proof.
  intros Hn Hz0. assert (Hn1 : (1 <= n)%nat) by lia. unfold Dof.
  assert (DI : increasing (map (Dr ho om orad dz) (seq 0 n))) by (apply tab_increasing; intros; eapply D_step; eauto).
  destruct (Rle_dec z (zi dz (n - 1))) as [Hle|Hgt].
  - assert (E0 : rinterp (zi dz 0) (map (zi dz) (seq 0 n)) (map (Dr ho om orad dz) (seq 0 n)) = 0).
    { rewrite <- (tab_nth (zi dz) n 0) by lia. rewrite rinterp_node; [rewrite tab_nth by lia; reflexivity|apply tab_len|apply zinc; auto|rewrite map_length, seq_length; lia]. }
    rewrite <- E0. apply rinterp_mono; auto using tab_ne, tab_len, zinc; [rewrite tab_hd by auto; lra|rewrite zi_0; auto|rewrite tab_last; auto].
  - rewrite rinterp_right; [|apply tab_ne; auto|apply tab_len|apply zinc; auto|rewrite tab_last by auto; lra]. rewrite tab_last by auto. replace (n - 1)%nat with (S (n - 2)) by lia. eapply D_pos; eauto.
Qed.
Lemma two_points n : dz < zmax -> c = table ho om orad ol dz n -> (2 <= n)%nat.
Proof.
  intros H E. destruct (points_exist dz Hdz zmax Hz) as [k Hk]. rewrite (make_table _ _ _ _ HF dz Hdz zmax k Hk) in HC. injection HC as HC'. rewrite E in HC'.
  apply (f_equal (fun c => length (cz c))) in HC'. rewrite !cz_tab, !map_length, !seq_length in HC'. rewrite <- HC'. destruct Hk as (K1 & _ & K2). destruct k as [|[|k]]; [lia| |lia]. cbn in K2. lra.
Qed.
Lemma log_volume zs : zs <> [] -> (forall z, In z zs -> 0 <= z) ->
  exists vs c', dVcdz c (map Fin zs) (Fin dz) = Ok (map Fin vs, c') /\ logdVcdz c (map Fin zs) (Fin dz) = Ok (map nlog (map Fin vs), c') /\
  Forall2 (fun z v => 0 <= v /\ (dz < zmax -> 0 < z -> 0 < v)) zs vs.
Proof.
  intros Hne Hpos. destruct (max_ok zs Hne) as [c' E]. unfold dVcdz, logdVcdz, z2Dc. rewrite E. cbn [rbind].
  destruct (made _ _ _ _ _ _ _ HF Hdz Hz HC) as (n & Hn & EC). rewrite EC in E. destruct (ext_step ho om orad ol HF dz Hdz n _ _ Hn E) as (m & Hm & E').
  rewrite E'. rewrite interp_D by auto. rewrite !map2_map.
  cut (exists vs, map2 (fun x y => dVcdz_of (table ho om orad ol dz m) (Fin x) (Fin y)) zs (map (Dof ho om orad dz m) zs) = map Fin vs /\
    map2 (fun x y => logdVcdz_of (table ho om orad ol dz m) (Fin x) (Fin y)) zs (map (Dof ho om orad dz m) zs) = map nlog (map Fin vs) /\
    Forall2 (fun z v => 0 <= v /\ (dz < zmax -> 0 < z -> 0 < v)) zs vs).
  { intros (vs & A & B & F). exists vs, (table ho om orad ol dz m). rewrite A, B. auto. }
  clear E Hne. induction zs as [|z zs IH]; [exists []; auto|]. destruct IH as (vs & A & B & F); [intros; apply Hpos; right; auto|].
  destruct (log_volume_at m z (Dof ho om orad dz m z)) as (G & r & R1 & R2 & R3); [apply Hpos; left; auto|apply Dof_nonneg; lia|].
  exists (r :: vs). cbn [map map2]. rewrite A, B, G, R1. split; [auto|]. split; [auto|]. constructor; auto. split; auto. intros H2 H3. apply R3, Dof_pos; auto.
  pose proof (two_points n H2 EC). lia.
Qed.
End Made.
