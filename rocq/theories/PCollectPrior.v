(** Proofs about the prior appended to the posterior samples (preprocess/data_collection.py:95-142). *)
From Coq Require Import Lia Lra.
From Verif Require Import PConstruct PUtils NumFacts ArrFacts Interp PSelection PCosmologyR PNumpyroDist PSplinePert.
From Verif Require Export PCollect SpecCosmology.
From Verif Require Export Spec.
Open Scope R_scope.
Open Scope string_scope.
Open Scope list_scope.

(** ** Interpolation *)
Lemma rinterp_in_segment xs : forall ys i x, length ys = length xs -> increasing xs -> (S i < length xs)%nat -> nth i xs 0 <= x <= nth (S i) xs 0 ->
  rinterp_in x xs ys = nth i ys 0 + (x - nth i xs 0) / (nth (S i) xs 0 - nth i xs 0) * (nth (S i) ys 0 - nth i ys 0).
Proof.
  induction xs as [|x0 xs IH]; intros ys i x Hl Hinc Hi Hx; [cbn in Hi; lia|]. destruct ys as [|y0 ys]; [discriminate|].
  destruct xs as [|x1 xs]; [cbn in Hi; lia|]. destruct ys as [|y1 ys]; [discriminate|]. rewrite rinterp_in_unfold. destruct Hinc as [H1 H2].
  destruct i as [|i].
  - cbn [nth] in *. unfold Rltb. destruct (Rlt_dec x x1); auto. assert (x = x1) by lra. subst x. rewrite rinterp_in_left by auto. field. lra.
  - change (nth (S i) (x0 :: x1 :: xs) 0) with (nth i (x1 :: xs) 0) in *. change (nth (S (S i)) (x0 :: x1 :: xs) 0) with (nth (S i) (x1 :: xs) 0) in *.
    change (nth (S i) (y0 :: y1 :: ys) 0) with (nth i (y1 :: ys) 0). change (nth (S (S i)) (y0 :: y1 :: ys) 0) with (nth (S i) (y1 :: ys) 0).
    assert (x1 <= nth i (x1 :: xs) 0) by (apply increasing_hd_le with xs; auto; apply nth_In; cbn in *; lia).
    rewrite Rltb_f by lra. apply IH; auto. cbn in *; lia.
Qed.
Lemma last_nth {A} (l : list A) d : last l d = nth (length l - 1) l d.
Proof. induction l as [|a [|b r] IH]; auto. change (last (b :: r) d = nth (length (b :: r)) (a :: b :: r) d). rewrite IH. cbn [length]. replace (S (length r) - 1)%nat with (length r) by lia. reflexivity. Qed.
Lemma rinterp_linear xs ys : xs <> [] -> length ys = length xs -> increasing xs -> linear_through xs ys (fun x => rinterp x xs ys).
Proof.
  intros Hne Hl Hinc. split; auto. destruct xs as [|x0 xs]; [congruence|]. destruct ys as [|y0 ys]; [discriminate|]. split; [|split].
  - intros x Hx. cbn [nth] in *. apply rinterp_left; auto.
  - intros x Hx. rewrite rinterp_right; auto; [|rewrite last_nth; auto]. rewrite last_nth, Hl. reflexivity.
  - intros i x Hi Hx. unfold rinterp. rewrite Rltb_f; [apply rinterp_in_segment; auto|].
    assert (x0 <= nth i (x0 :: xs) 0) by (apply increasing_hd_le with xs; auto; apply nth_In; lia). lra.
Qed.

(** ** The tables *)
Section Flat.
Variables ho om orad ol : R.
Hypothesis HF : flat ho om orad ol.
Notation dz := DEFAULT_DZ.
Notation tab := (table ho om orad ol dz).
Lemma Hdz : 0 < dz. Proof. unfold DEFAULT_DZ. lra. Qed.
Lemma ext_ok n zs z : (1 <= n)%nat -> In z zs -> dz < z -> exists m, (2 <= m)%nat /\ maybe_extend (tab n) (map Fin zs) (Fin dz) = Ok (tab m).
Proof.
  intros Hn Hin Hz. assert (Hne : zs <> []) by (intros ->; destruct Hin). destruct (amax_fin zs Hne) as (mx & E & _ & U). unfold maybe_extend. rewrite E. cbn [rbind].
  rewrite cz_tab, amax_incr by (try apply tab_ne; auto; apply zinc, Hdz). cbn [rbind]. rewrite tab_last by auto. unfold ngt, nlt.
  assert (Hmx : z <= mx) by auto. destruct (Rltb _ _) eqn:G.
  - apply Rltb_true in G. destruct (points_exist dz Hdz mx) as [k Hk]; [pose proof Hdz; lra|].
    exists k. split; [|apply (extend_table _ _ _ _ HF dz Hdz (tab n) mx k (table_params _ _ _ _ _ n) Hk)].
    destruct Hk as (K1 & _ & K2). destruct k as [|[|k]]; [lia| |lia]. cbn in K2. lra.
  - apply Rltb_false in G. exists n. split; auto. destruct n as [|[|n]]; [lia| |lia]. change (1 - 1)%nat with 0%nat in G. rewrite zi_0 in G. pose proof Hdz. lra.
Qed.
Lemma Lof_nonneg n z : (1 <= n)%nat -> 0 <= Lof ho om orad dz n z.
Proof.
  intros Hn. apply rinterp_nonneg; [apply zinc, Hdz|]. intros y Hy. apply in_map_iff in Hy. destruct Hy as (i & <- & _).
  pose proof (L_mono ho om orad ol HF dz Hdz 0 i ltac:(lia)) as M. rewrite L_0 in M. exact M.
Qed.
Lemma Lof_pos n z : (2 <= n)%nat -> 0 < z -> 0 < Lof ho om orad dz n z.
Proof.
  intros Hn Hz0. assert (Hn1 : (1 <= n)%nat) by lia. unfold Lof. pose proof Hdz as HD.
  assert (LI : increasing (map (L ho om orad dz) (seq 0 n))) by (apply tab_increasing; intros; eapply L_lt; eauto).
  destruct (Rle_dec z (zi dz (n - 1))) as [Hle|Hgt].
  - assert (E0 : rinterp (zi dz 0) (map (zi dz) (seq 0 n)) (map (L ho om orad dz) (seq 0 n)) = 0).
    { rewrite <- (tab_nth (zi dz) n 0) by lia. rewrite rinterp_node; [rewrite tab_nth by lia; apply L_0|apply tab_len|apply zinc; auto|rewrite map_length, seq_length; lia]. }
    rewrite <- E0. apply rinterp_mono; auto using tab_ne, tab_len, zinc; [rewrite tab_hd by auto; lra|rewrite zi_0; auto|rewrite tab_last; auto].
  - rewrite rinterp_right; [|apply tab_ne; auto|apply tab_len|apply zinc; auto|rewrite tab_last by auto; lra]. rewrite tab_last by auto.
    pose proof (L_mono ho om orad ol HF dz HD 0 (n - 2) ltac:(lia)) as M. rewrite L_0 in M. pose proof (L_lt ho om orad ol HF dz HD (n - 2)) as M2.
    replace (S (n - 2)) with (n - 1)%nat in M2 by lia. lra.
Qed.
Lemma euclid_ok n zs z1 : (1 <= n)%nat -> (forall z, In z zs -> 0 <= z) -> In z1 zs -> dz < z1 ->
  exists dl m, (2 <= m)%nat /\ z2DL (tab n) (map Fin zs) (Fin dz) = Ok (map Fin dl, tab m) /\ length dl = length zs /\
  dl_2_prior_on_z (tab n) (map Fin zs) true = Ok (map Fin (map2 (fun z d => euclidean_shape z d (comoving_rate ho om orad z)) zs dl), tab m) /\
  Forall2 (fun z d => 0 <= d /\ (0 < z -> 0 < d)) zs dl.
Proof.
  intros Hn Hp Hin Hz. destruct (ext_ok n zs z1 Hn Hin Hz) as (m & Hm & E). exists (map (Lof ho om orad dz m) zs), m. split; auto.
  assert (EZ : z2DL (tab n) (map Fin zs) (Fin dz) = Ok (map Fin (map (Lof ho om orad dz m) zs), tab m)).
  { unfold z2DL. rewrite E. cbn [rbind]. rewrite (interp_L _ _ _ _ dz Hdz). reflexivity. }
  split; auto. split; [apply map_length|]. split.
  - unfold dl_2_prior_on_z. rewrite EZ. cbn [rbind]. do 2 f_equal. rewrite map2_same, !map_map, map2_map_same. apply map_ext_in. intros z Hz'.
    specialize (Hp z Hz'). rewrite (dDcdz_real _ _ _ _ HF _ _ (table_params _ _ _ _ _ m) Hp). rewrite npowi_fin, nadd_fin, ndiv_fin, !nmul_fin by lra. reflexivity.
  - clear - Hp Hm HF. induction zs as [|z r IH]; cbn [map]; constructor; [|apply IH; intros; apply Hp; now right].
    split; [apply Lof_nonneg; lia|]. intros. apply Lof_pos; auto.
Qed.
Lemma comoving_ok n zs z1 : (1 <= n)%nat -> (forall z, In z zs -> 0 <= z) -> In z1 zs -> dz < z1 ->
  exists d m, (2 <= m)%nat /\ z2Dc (tab n) (map Fin zs) (Fin dz) = Ok (map Fin d, tab m) /\ length d = length zs /\
  dl_2_prior_on_z (tab n) (map Fin zs) false = Ok (map Fin (map2 (fun z d => comoving_shape z d (comoving_rate ho om orad z)) zs d), tab m) /\
  Forall2 (fun z d => 0 <= d /\ (0 < z -> 0 < d)) zs d.
Proof.
  intros Hn Hp Hin Hz. destruct (ext_ok n zs z1 Hn Hin Hz) as (m & Hm & E). exists (map (Dof ho om orad dz m) zs), m. split; auto.
  assert (EZ : z2Dc (tab n) (map Fin zs) (Fin dz) = Ok (map Fin (map (Dof ho om orad dz m) zs), tab m)).
  { unfold z2Dc. rewrite E. cbn [rbind]. rewrite (interp_D _ _ _ _ dz Hdz). reflexivity. }
  split; auto. split; [apply map_length|]. split.
  - unfold dl_2_prior_on_z, dVcdz. rewrite EZ. cbn [rbind]. do 2 f_equal. rewrite map2_same, !map_map, !map2_map_same. apply map_ext_in. intros z Hz'.
    specialize (Hp z Hz'). rewrite (dVcdz_real _ _ _ _ HF _ _ _ (table_params _ _ _ _ _ m) Hp). rewrite nadd_fin, ndiv_fin by lra. reflexivity.
  - clear - Hp Hm HF. induction zs as [|z r IH]; cbn [map]; constructor; [|apply IH; intros; apply Hp; now right].
    split; [apply (Dof_nonneg ho om orad ol dz HF Hdz); lia|]. intros. apply (Dof_pos ho om orad ol dz HF Hdz); auto.
Qed.
Lemma shape_density (g : R -> R -> R -> R) zs ds : increasing zs -> (2 <= length zs)%nat -> length ds = length zs -> (forall z, In z zs -> 0 <= z) -> (exists z, In z zs /\ 0 < z) ->
  Forall2 (fun z d => 0 <= d /\ (0 < z -> 0 < d)) zs ds ->
  (forall z d f, 0 <= z -> 0 <= d -> 0 < f -> 0 <= g z d f) -> (forall z d f, 0 <= z -> 0 < d -> 0 < f -> 0 < g z d f) ->
  let ys := map2 (fun z d => g z d (comoving_rate ho om orad z)) zs ds in 0 < trapezoid zs ys /\ forall y, In y ys -> 0 <= y.
Proof.
  intros Hi H2 Hl Hp (z0 & Hz0 & P0) F G1 G2 ys.
  assert (Y : (forall y, In y ys -> 0 <= y) /\ exists y, In y ys /\ 0 < y).
  { unfold ys. clear Hi H2 Hl ys. induction F as [|z d r r' [D1 D2] F IH]; [destruct Hz0|]. cbn [map2].
    assert (HZ : 0 <= z) by (apply Hp; now left). pose proof (f_pos _ _ _ _ HF z HZ) as FP. split.
    - intros y [<-|Hy]; [apply G1; auto|]. revert y Hy. clear IH Hz0. assert (Hp' : forall z, In z r -> 0 <= z) by (intros; apply Hp; now right). clear - F Hp' G1 HF. induction F as [|z d r r' [D1 D2] F IH]; [intros y []|].
      cbn [map2]. intros y [<-|Hy]; [|apply IH; auto; intros; apply Hp'; now right]. assert (HZ : 0 <= z) by (apply Hp'; now left). apply G1; auto. apply (f_pos _ _ _ _ HF z HZ).
    - destruct Hz0 as [->|Hz0].
      + eexists. split; [now left|]. apply G2; auto.
      + destruct IH as (_ & y & Hy & Py); auto; [intros; apply Hp; now right|]. exists y. split; auto. now right. }
  destruct Y as [Y1 Y2]. split; auto. apply trapezoid_pos_some; auto. unfold ys. rewrite map2_length. lia.
Qed.
Theorem tables_ok n zmax : (1 <= n)%nat -> 19 / 10 <= zmax ->
  let zs := rlinspace 0 (zmax * (101 / 100)) 1000 in
  exists dl d pe pc c1 c2 m, z_tables (tab n) (Fin zmax) = Ok (map Fin zs, map Fin pe, map Fin pc, tab m) /\
    grid_density zs pe /\ grid_density zs pc /\
    z2DL (tab n) (map Fin zs) (Fin dz) = Ok (map Fin dl, c1) /\ z2Dc c1 (map Fin zs) (Fin dz) = Ok (map Fin d, c2) /\
    proportional pe (map2 (fun z dl => euclidean_shape z dl (comoving_rate ho om orad z)) zs dl) /\
    proportional pc (map2 (fun z d => comoving_shape z d (comoving_rate ho om orad z)) zs d).
Proof.
  intros Hn Hz zs. assert (Hb : 0 < zmax * (101 / 100)) by lra.
  assert (Hinc : increasing zs) by (apply rlinspace_increasing; auto).
  assert (Hlen : length zs = 1000%nat) by apply rlinspace_length.
  assert (Hp : forall z, In z zs -> 0 <= z) by (intros z Hin; apply rlinspace_range in Hin; lra).
  assert (H2 : (2 <= length zs)%nat) by (rewrite Hlen; apply two_thousand).
  set (zl := nth (length zs - 1) zs 0).
  assert (Hzl : In zl zs) by (apply nth_In; lia).
  assert (Ezl : dz < zl).
  { unfold zl, zs. rewrite rlinspace_length, rlinspace_nth by (pose proof two_thousand; lia). unfold DEFAULT_DZ.
    assert (N : INR (1000 - 1) <> 0) by (apply not_0_INR; pose proof two_thousand; lia).
    replace (0 + INR (1000 - 1) * ((zmax * (101 / 100) - 0) / INR (1000 - 1))) with (zmax * (101 / 100)) by (field; auto). lra. }
  destruct (euclid_ok n zs zl Hn Hp Hzl Ezl) as (dl & m1 & M1 & E1 & L1 & P1 & F1).
  destruct (comoving_ok m1 zs zl ltac:(lia) Hp Hzl Ezl) as (d & m2 & M2 & E2 & L2 & P2 & F2).
  assert (Hzl0 : exists z, In z zs /\ 0 < z) by (exists zl; split; auto; pose proof Hdz; lra).
  set (ye := map2 (fun z dl => euclidean_shape z dl (comoving_rate ho om orad z)) zs dl) in *.
  set (yc := map2 (fun z d => comoving_shape z d (comoving_rate ho om orad z)) zs d) in *.
  destruct (shape_density euclidean_shape zs dl Hinc H2 L1 Hp Hzl0 F1) as [TE NE].
  { intros z x f A B D. unfold euclidean_shape. apply Rmult_le_pos; [apply pow_le; auto|]. apply Rplus_le_le_0_compat; [apply Rmult_le_pos; auto; left; apply Rinv_0_lt_compat; lra|apply Rmult_le_pos; lra]. }
  { intros z x f A B D. unfold euclidean_shape. apply Rmult_lt_0_compat; [apply pow_lt; auto|]. apply Rplus_lt_0_compat; [apply Rdiv_lt_0_compat; lra|apply Rmult_lt_0_compat; lra]. }
  destruct (shape_density comoving_shape zs d Hinc H2 L2 Hp Hzl0 F2) as [TC NC].
  { intros z x f A B D. unfold comoving_shape. pose proof PI_RGT_0. apply Rmult_le_pos; [|left; apply Rinv_0_lt_compat; lra]. apply Rmult_le_pos; [|lra]. apply Rmult_le_pos; [lra|apply pow_le; auto]. }
  { intros z x f A B D. unfold comoving_shape. pose proof PI_RGT_0. apply Rdiv_lt_0_compat; [|lra]. apply Rmult_lt_0_compat; auto. apply Rmult_lt_0_compat; [lra|apply pow_lt; auto]. }
  fold ye in TE, NE. fold yc in TC, NC.
  assert (Ln : forall y k, In y (map (fun y => y / k) ye) \/ True) by auto. clear Ln.
  exists dl, d, (map (fun y => y / trapezoid zs ye) ye), (map (fun y => y / trapezoid zs yc) yc), (tab m1), (tab m2), m2.
  assert (GD : forall y, 0 < trapezoid zs y -> (forall v, In v y -> 0 <= v) -> length y = length zs -> grid_density zs (map (fun v => v / trapezoid zs y) y)).
  { intros y T N L. split; [now rewrite map_length|]. split.
    - intros v Hv. apply in_map_iff in Hv as (u & <- & Hu). apply Rmult_le_pos; auto. left. now apply Rinv_0_lt_compat.
    - rewrite trapezoid_div. field. lra. }
  split; [|split; [|split; [|split; [|split; [|split]]]]]; auto.
  - unfold z_tables. rewrite nmul_fin, nlinspace_fin by apply two_thousand. fold zs. rewrite P1. cbn [rbind]. rewrite P2. cbn [rbind]. cbv zeta.
    rewrite !ntrapz_fin, !map_map.
    assert (AE : forall t l, t <> 0 -> map (fun x => ndiv (Fin x) (Fin t)) l = map (fun x => Fin (x / t)) l) by (intros; apply map_ext; intros; now apply ndiv_fin).
    rewrite !AE by lra. reflexivity.
  - apply GD; auto. unfold ye. rewrite map2_length. lia.
  - apply GD; auto. unfold yc. rewrite map2_length. lia.
  - exists (trapezoid zs ye). auto.
  - exists (trapezoid zs yc). auto.
Qed.
End Flat.
