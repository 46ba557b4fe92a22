(** Accuracy of every distance query, whatever the table. *)
From Coq Require Import Lia Lra.
From Verif Require Export PCosmologyV.
From Verif Require Export Spec.
Open Scope R_scope.

Section Flat.
Variables ho om orad ol : R.
Hypothesis HF : flat ho om orad ol.
Variable dz : R.
Hypothesis Hdz : 0 < dz.
Let H := light / ho.
Notation f := (comoving_rate ho om orad).
Notation D := (Dr ho om orad dz).
Notation LL := (L ho om orad dz).
Notation tab := (table ho om orad ol dz).
Notation zi := (zi dz).
Notation dist := (RInt f 0).
Lemma H_pos_ : 0 < H. Proof. apply (coH_pos ho om orad ol HF). Qed.
Lemma dist_int_ z : 0 <= z -> is_RInt f 0 z (dist z).
Proof. intros Hz. apply (RInt_correct f). destruct (f_int ho om orad ol HF 0 z) as (I & HI & _); [lra|lra|]. exists I. exact HI. Qed.
Lemma dist_inc x y : 0 <= x -> x <= y -> 0 <= dist y - dist x <= H * (y - x).
Proof.
  intros Hx Hy. destruct (f_int ho om orad ol HF x y Hx Hy) as (J & HJ & B1 & B2). replace (dist y) with (dist x + J).
  - pose proof (f_pos _ _ _ _ HF y ltac:(lra)). pose proof (f_le _ _ _ _ HF x Hx). unfold H. split; [|nra]. assert (0 <= f y * (y - x)) by (apply Rmult_le_pos; lra). lra.
  - symmetry. apply is_RInt_unique. apply (is_RInt_ChaslesR f 0 x); [apply dist_int_; auto|exact HJ].
Qed.
Lemma zi_nonneg i : 0 <= zi i. Proof. apply (z_nonneg dz Hdz). Qed.
Lemma node i : Rabs (D i - dist (zi i)) <= H * dz / 2.
Proof. destruct (D_error_bound _ _ _ _ HF dz Hdz i) as (I & HI & HE). replace (dist (zi i)) with I; [exact HE|]. symmetry. apply is_RInt_unique. exact HI. Qed.
Lemma dist_le z : 0 <= z -> 0 <= dist z <= H * z.
Proof. intros Hz. destruct (f_int ho om orad ol HF 0 z (Rle_refl 0) Hz) as (J & HJ & B1 & B2). rewrite (is_RInt_unique _ _ _ _ HJ). pose proof (f_pos _ _ _ _ HF z Hz). pose proof (f_le _ _ _ _ HF 0 (Rle_refl 0)). unfold H. rewrite Rminus_0_r in *. split; [|nra]. assert (0 <= f z * z) by (apply Rmult_le_pos; lra). lra. Qed.
(** [z] is in the i-th cell *)
Lemma cell_D i z d : zi i <= z <= zi (S i) -> D i <= d <= D (S i) -> Rabs (d - dist z) <= 3 / 2 * (H * dz).
Proof.
  intros Hz Hd. pose proof (zi_nonneg i). assert (ES : zi (S i) = zi i + dz) by apply z_S. pose proof (node i) as N0. pose proof (node (S i)) as N1. apply Rabs_le_between in N0, N1.
  pose proof (dist_inc (zi i) z ltac:(lra) ltac:(lra)) as I0. pose proof (dist_inc z (zi (S i)) ltac:(lra) ltac:(lra)) as I1. pose proof H_pos_ as HP.
  assert (H * (z - zi i) <= H * dz) by (apply Rmult_le_compat_l; lra). assert (H * (zi (S i) - z) <= H * dz) by (apply Rmult_le_compat_l; lra).
  apply Rabs_le_between. lra.
Qed.
Lemma cell_L i z l : zi i <= z <= zi (S i) -> LL i <= l <= LL (S i) -> Rabs (l - (1 + z) * dist z) <= H * dz * (5 / 2 * (1 + z) + 3 / 2 * dz).
Proof.
  intros Hz Hl. pose proof (zi_nonneg i) as Z0. assert (ES : zi (S i) = zi i + dz) by apply z_S. pose proof (node i) as N0. pose proof (node (S i)) as N1. apply Rabs_le_between in N0, N1.
  pose proof (dist_inc (zi i) z ltac:(lra) ltac:(lra)) as I0. pose proof (dist_inc z (zi (S i)) ltac:(lra) ltac:(lra)) as I1. pose proof H_pos_ as HP. pose proof (dist_le z ltac:(lra)) as DZ.
  assert (B0 : H * (z - zi i) <= H * dz) by (apply Rmult_le_compat_l; lra). assert (B1 : H * (zi (S i) - z) <= H * dz) by (apply Rmult_le_compat_l; lra).
  assert (L0 : LL i = (1 + zi i) * D i) by (unfold L, PCosmologyQ.zi; ring). assert (L1 : LL (S i) = (1 + zi (S i)) * D (S i)) by (unfold L, PCosmologyQ.zi; ring).
  assert (HD : 0 <= H * dz) by (apply Rmult_le_pos; lra). set (k := H * dz) in *. set (u := dist z) in *.
  assert (U1 : D (S i) <= u + 3 / 2 * k) by lra. assert (U0 : u - 3 / 2 * k <= D i) by lra.
  assert (A1 : (1 + zi (S i)) * D (S i) <= (1 + zi (S i)) * (u + 3 / 2 * k)) by (apply Rmult_le_compat_l; lra).
  assert (A0 : (1 + zi i) * (u - 3 / 2 * k) <= (1 + zi i) * D i) by (apply Rmult_le_compat_l; lra).
  assert (UK : dz * u <= k * z). { unfold k. replace (H * dz * z) with (dz * (H * z)) by ring. apply Rmult_le_compat_l; lra. }
  assert (C1 : (1 + zi (S i)) * (u + 3 / 2 * k) <= (1 + z + dz) * (u + 3 / 2 * k)) by (apply Rmult_le_compat_r; lra).
  assert (C0 : (1 + z) * u - dz * u - (1 + z) * (3 / 2 * k) <= (1 + zi i) * (u - 3 / 2 * k)).
  { assert ((1 + z - dz) * u <= (1 + zi i) * u) by (apply Rmult_le_compat_r; lra). assert ((1 + zi i) * (3 / 2 * k) <= (1 + z) * (3 / 2 * k)) by (apply Rmult_le_compat_r; lra). lra. }
  assert (0 <= k * dz) by (apply Rmult_le_pos; lra). assert (0 <= k * z) by (apply Rmult_le_pos; lra).
  apply Rabs_le_between. replace (k * (5 / 2 * (1 + z) + 3 / 2 * dz)) with (5 / 2 * k + 5 / 2 * (k * z) + 3 / 2 * (k * dz)) by field.
  rewrite L0, L1 in Hl. split; nra.
Qed.
Lemma interp_cell (g : nat -> R) n i z : (forall j, g j < g (S j)) -> (S i < n)%nat -> zi i <= z <= zi (S i) -> g i <= rinterp z (map zi (seq 0 n)) (map g (seq 0 n)) <= g (S i).
Proof.
  intros Hg Hi Hz. rewrite (interp_seg dz Hdz _ n i) by auto. assert (ES : zi (S i) = zi i + dz) by apply z_S. set (t := (z - zi i) / dz).
  assert (Ht : 0 <= t <= 1). { unfold t. split; [apply Rmult_le_pos; [lra|left; apply Rinv_0_lt_compat; auto]|]. apply Rmult_le_reg_r with dz; auto. unfold Rdiv. rewrite Rmult_assoc, Rinv_l by lra. lra. }
  pose proof (Hg i). nra.
Qed.
Lemma any_value n z : (1 <= n)%nat -> 0 <= z <= zi n -> Rabs (Dof ho om orad dz n z - dist z) <= 3 / 2 * (H * dz) /\ Rabs (Lof ho om orad dz n z - (1 + z) * dist z) <= H * dz * (5 / 2 * (1 + z) + 3 / 2 * dz).
Proof.
  intros Hn Hz. assert (SD : forall j, D j < D (S j)) by (intros; eapply D_step; eauto). assert (SL : forall j, LL j < LL (S j)) by (intros; eapply L_step; eauto).
  destruct (Rle_dec z (zi (n - 1))) as [Q|Q].
  - destruct (segment dz Hdz n z Hn ltac:(lra)) as [[-> ->]|(i & Hi & Hzi)].
    + assert (Dof ho om orad dz 1 0 = D 0) as -> by (unfold Dof; cbn [seq map]; rewrite rinterp_left by (cbn; auto; rewrite zi_0; lra); reflexivity).
      assert (Lof ho om orad dz 1 0 = LL 0) as -> by (unfold Lof; cbn [seq map]; rewrite rinterp_left by (cbn; auto; rewrite zi_0; lra); reflexivity).
      pose proof (zi_step dz Hdz 0) as Z1. rewrite zi_0 in Z1. split; [apply (cell_D 0)|apply (cell_L 0)]; try (rewrite zi_0; lra); split; try apply Rle_refl; left; auto.
    + split; [apply (cell_D i)|apply (cell_L i)]; auto; apply interp_cell; auto.
  - assert (ES : S (n - 1) = n) by lia. assert (Hc : zi (n - 1) <= z <= zi (S (n - 1))) by (rewrite ES; lra).
    assert (Dof ho om orad dz n z = D (n - 1)) as ->.
    { unfold Dof. rewrite rinterp_right; [apply tab_last; auto|apply tab_ne; auto|apply tab_len|apply zinc; auto|rewrite tab_last by auto; lra]. }
    assert (Lof ho om orad dz n z = LL (n - 1)) as ->.
    { unfold Lof. rewrite rinterp_right; [apply tab_last; auto|apply tab_ne; auto|apply tab_len|apply zinc; auto|rewrite tab_last by auto; lra]. }
    split; [apply (cell_D (n - 1))|apply (cell_L (n - 1))]; auto; split; try apply Rle_refl; left; auto.
Qed.
Lemma any_extend n zs : (1 <= n)%nat -> zs <> [] -> exists m, (1 <= m)%nat /\ maybe_extend (tab n) (map Fin zs) (Fin dz) = Ok (tab m) /\ forall z, In z zs -> z <= zi m.
Proof.
  intros Hn Hz. destruct (amax_fin zs Hz) as (x & E & _ & U). unfold maybe_extend. rewrite E. cbn [rbind]. rewrite cz_tab, amax_incr by (try apply tab_ne; auto using zinc). cbn [rbind].
  rewrite tab_last by auto. unfold ngt, nlt. destruct (Rltb (zi (n - 1)) x) eqn:G.
  - apply Rltb_true in G. destruct (points_exist dz Hdz x) as [m Hm]; [pose proof (zi_nonneg (n - 1)); lra|].
    exists m. pose proof Hm as (M1 & _ & M2). split; auto. split; [apply (extend_table _ _ _ _ HF); auto using table_params|]. intros z Iz. apply Rle_trans with x; auto.
  - apply Rltb_false in G. exists n. split; auto. split; auto. intros z Iz. apply Rle_trans with x; auto. apply Rle_trans with (zi (n - 1)); auto. apply zi_mono; auto. lia.
Qed.
End Flat.
Lemma every_query ho om orad ol zmax dz c : flat ho om orad ol -> 0 < dz -> 0 < zmax ->
  make_cosmo (Fin ho) (Fin om) (Fin orad) (Fin ol) (Fin zmax) (Fin dz) = Ok c ->
  forall qs zs, zs <> [] -> (forall z, In z zs -> 0 <= z) -> let c1 := history c qs (Fin dz) in
  exists Dc DL c', z2Dc c1 (map Fin zs) (Fin dz) = Ok (map Fin Dc, c') /\ z2DL c1 (map Fin zs) (Fin dz) = Ok (map Fin DL, c') /\ length Dc = length zs /\ length DL = length zs /\
  forall i, (i < length zs)%nat -> exists I, is_RInt (comoving_rate ho om orad) 0 (nth i zs 0) I /\
    Rabs (nth i Dc 0 - I) <= 3 / 2 * (light / ho * dz) /\ Rabs (nth i DL 0 - (1 + nth i zs 0) * I) <= light / ho * dz * (5 / 2 * (1 + nth i zs 0) + 3 / 2 * dz).
Proof.
  intros HF Hdz Hz HC qs zs Hne Hpos. destruct (made _ _ _ _ _ _ _ HF Hdz Hz HC) as (n & Hn & ->). destruct (history_step ho om orad ol HF dz Hdz qs n Hn) as (m & Hm & E). cbv zeta. rewrite E.
  destruct (any_extend ho om orad ol HF dz Hdz m zs ltac:(lia) Hne) as (k & Hk & X & B). exists (map (Dof ho om orad dz k) zs), (map (Lof ho om orad dz k) zs), (table ho om orad ol dz k).
  split; [unfold z2Dc; rewrite X; cbn [rbind]; rewrite interp_D; auto|]. split; [unfold z2DL; rewrite X; cbn [rbind]; rewrite interp_L; auto|]. rewrite !map_length. split; auto. split; auto.
  intros i Hi. assert (IN : In (nth i zs 0) zs) by (apply nth_In; auto). exists (RInt (comoving_rate ho om orad) 0 (nth i zs 0)). split; [apply (dist_int_ ho om orad ol HF); auto|].
  destruct (any_value ho om orad ol HF dz Hdz k (nth i zs 0) Hk (conj (Hpos _ IN) (B _ IN))) as [A1 A2].
  rewrite (nth_indep (map (Dof ho om orad dz k) zs) 0 (Dof ho om orad dz k 0)), (nth_indep (map (Lof ho om orad dz k) zs) 0 (Lof ho om orad dz k 0)), !map_nth by (rewrite map_length; auto). auto.
Qed.

(** volume elements after any queries *)
Lemma hist_extend ho om orad ol zmax dz c : flat ho om orad ol -> 0 < dz -> 0 < zmax ->
  make_cosmo (Fin ho) (Fin om) (Fin orad) (Fin ol) (Fin zmax) (Fin dz) = Ok c ->
  forall qs zs, zs <> [] -> exists m, (1 <= m)%nat /\ (dz < zmax -> (2 <= m)%nat) /\ maybe_extend (history c qs (Fin dz)) (map Fin zs) (Fin dz) = Ok (table ho om orad ol dz m).
Proof.
  intros HF Hdz Hz HC qs zs Hne. destruct (made _ _ _ _ _ _ _ HF Hdz Hz HC) as (n & Hn & EC). destruct (history_step ho om orad ol HF dz Hdz qs n Hn) as (k & Hk & E).
  destruct (any_extend ho om orad ol HF dz Hdz k zs ltac:(lia) Hne) as (m & Hm & X & _). rewrite EC, E. exists m. split; auto. split; auto.
  intros H2. pose proof (two_points ho om orad ol zmax dz c HF Hdz Hz HC n H2 EC). destruct (ext_step ho om orad ol HF dz Hdz k _ _ ltac:(lia) X) as (m' & Hm' & E').
  apply (f_equal (fun c => length (cz c))) in E'. rewrite !cz_tab, !map_length, !seq_length in E'. lia.
Qed.
Lemma element_any ho om orad ol zmax dz c : flat ho om orad ol -> 0 < dz -> 0 < zmax ->
  make_cosmo (Fin ho) (Fin om) (Fin orad) (Fin ol) (Fin zmax) (Fin dz) = Ok c ->
  forall qs zs, zs <> [] -> (forall z, In z zs -> 0 <= z) -> let c1 := history c qs (Fin dz) in
  exists Ds c', z2Dc c1 (map Fin zs) (Fin dz) = Ok (map Fin Ds, c') /\ length Ds = length zs /\
    dVcdz c1 (map Fin zs) (Fin dz) = Ok (map Fin (map2 (fun z d => 4 * PI * d ^ 2 * comoving_rate ho om orad z) zs Ds), c').
Proof.
  intros HF Hdz Hz HC qs zs Hne Hpos. cbv zeta. destruct (hist_extend _ _ _ _ _ _ _ HF Hdz Hz HC qs zs Hne) as (m & Hm & _ & X). unfold dVcdz, z2Dc. rewrite X. cbn [rbind].
  rewrite interp_D by auto. exists (map (Dof ho om orad dz m) zs), (table ho om orad ol dz m). split; auto. rewrite map_length. split; auto. do 2 f_equal.
  clear X Hne. induction zs as [|z zs IH]; [reflexivity|]. cbn [map map2].
  rewrite (dVcdz_real _ _ _ _ HF _ _ _ (table_params ho om orad ol dz m)) by (apply Hpos; left; auto). f_equal. apply IH. intros; apply Hpos; right; auto.
Qed.
Lemma log_volume_any ho om orad ol zmax dz c : flat ho om orad ol -> 0 < dz -> 0 < zmax ->
  make_cosmo (Fin ho) (Fin om) (Fin orad) (Fin ol) (Fin zmax) (Fin dz) = Ok c ->
  forall qs zs, zs <> [] -> (forall z, In z zs -> 0 <= z) -> let c1 := history c qs (Fin dz) in
  exists vs c', dVcdz c1 (map Fin zs) (Fin dz) = Ok (map Fin vs, c') /\ logdVcdz c1 (map Fin zs) (Fin dz) = Ok (map nlog (map Fin vs), c') /\
  Forall2 (fun z v => 0 <= v /\ (dz < zmax -> 0 < z -> 0 < v)) zs vs.
Proof.
  intros HF Hdz Hz HC qs zs Hne Hpos. cbv zeta. destruct (hist_extend _ _ _ _ _ _ _ HF Hdz Hz HC qs zs Hne) as (m & Hm & H2 & X). unfold dVcdz, logdVcdz, z2Dc. rewrite X. cbn [rbind].
  rewrite interp_D by auto. rewrite !map2_map.
  cut (exists vs, map2 (fun x y => dVcdz_of (table ho om orad ol dz m) (Fin x) (Fin y)) zs (map (Dof ho om orad dz m) zs) = map Fin vs /\
    map2 (fun x y => logdVcdz_of (table ho om orad ol dz m) (Fin x) (Fin y)) zs (map (Dof ho om orad dz m) zs) = map nlog (map Fin vs) /\
    Forall2 (fun z v => 0 <= v /\ (dz < zmax -> 0 < z -> 0 < v)) zs vs).
  { intros (vs & A & B & F). exists vs, (table ho om orad ol dz m). rewrite A, B. auto. }
  clear X Hne. induction zs as [|z zs IH]; [exists []; auto|]. destruct IH as (vs & A & B & F); [intros; apply Hpos; right; auto|].
  destruct (log_volume_at ho om orad ol dz HF m z (Dof ho om orad dz m z)) as (G & r & R1 & R2 & R3); [apply Hpos; left; auto|eapply Dof_nonneg; eauto|].
  exists (r :: vs). cbn [map map2]. rewrite A, B, G, R1. split; [auto|]. split; [auto|]. constructor; auto. split; auto. intros H3 H4. apply R3. eapply Dof_pos; eauto.
Qed.
