(** The tables of a flat cosmology: monotone, and close to the exact integral. *)
From Verif Require Export PCosmology.
Open Scope R_scope.

Section Flat.
Variables ho om orad ol : R.
Hypothesis HF : flat ho om orad ol.
Variable dz : R.
Hypothesis Hdz : 0 < dz.
Let f := comoving_rate ho om orad.
Notation D := (Dr ho om orad dz).
Notation V := (Vr ho om orad dz).

Lemma D_S i : D (S i) = D i + 1 / 2 * (f (INR i * dz) + f (INR i * dz + dz)) * dz.
Proof. reflexivity. Qed.
Lemma z_S i : INR (S i) * dz = INR i * dz + dz.
Proof. rewrite S_INR. ring. Qed.
Lemma z_nonneg i : 0 <= INR i * dz.
Proof. pose proof (pos_INR i). nra. Qed.
Lemma D_step i : D i < D (S i).
Proof.
  rewrite D_S. pose proof (z_nonneg i). pose proof (f_pos _ _ _ _ HF (INR i * dz) ltac:(lra)). pose proof (f_pos _ _ _ _ HF (INR i * dz + dz) ltac:(lra)).
  unfold f in *. nra.
Qed.
Lemma D_nonneg i : 0 <= D i.
Proof. induction i as [|i IH]; [cbn; lra|]. pose proof (D_step i). lra. Qed.
Lemma D_pos i : 0 < D (S i).
Proof. pose proof (D_step i). pose proof (D_nonneg i). lra. Qed.
Lemma D_bound i : D i <= light / ho * (INR i * dz).
Proof.
  induction i as [|i IH]; [cbn; lra|]. rewrite D_S, z_S. pose proof (z_nonneg i). pose proof (f_le _ _ _ _ HF (INR i * dz) ltac:(lra)). pose proof (f_le _ _ _ _ HF (INR i * dz + dz) ltac:(lra)).
  unfold f in *. nra.
Qed.
Lemma V_step i : V i < V (S i).
Proof.
  change (V (S i)) with (V i + 1 / 2 * (4 * PI * D i ^ 2 * f (INR i * dz) + 4 * PI * D (S i) ^ 2 * f (INR i * dz + dz)) * dz).
  pose proof (z_nonneg i). pose proof (f_pos _ _ _ _ HF (INR i * dz) ltac:(lra)) as P1. pose proof (f_pos _ _ _ _ HF (INR i * dz + dz) ltac:(lra)) as P2. change (0 < f (INR i * dz)) in P1. change (0 < f (INR i * dz + dz)) in P2. 
  set (f1 := f (INR i * dz)) in *. set (f2 := f (INR i * dz + dz)) in *.
  assert (0 <= 4 * PI * D i ^ 2 * f1).
  { pose proof PI_RGT_0. pose proof (pow2_ge_0 (D i)). apply Rmult_le_pos; [|lra]. apply Rmult_le_pos; lra. }
  assert (0 < 4 * PI * D (S i) ^ 2 * f2).
  { pose proof PI_RGT_0. pose proof (D_pos i). assert (0 < D (S i) ^ 2) by (apply pow_lt; auto). apply Rmult_lt_0_compat; auto. apply Rmult_lt_0_compat; lra. }
  nra.
Qed.
Definition L i := D i * (1 + INR i * dz).
Lemma L_step i : L i < L (S i).
Proof.
  unfold L. rewrite z_S. pose proof (D_step i). pose proof (D_nonneg i). pose proof (z_nonneg i).
  apply Rle_lt_trans with (D i * (1 + (INR i * dz + dz))); [apply Rmult_le_compat_l; lra|apply Rmult_lt_compat_r; lra].
Qed.

Lemma tab_increasing g n : (forall i, g i < g (S i)) -> increasing (map g (seq 0 n)).
Proof.
  intros H. apply (increasing_of_nth _ 0). intros i Hi. rewrite map_length, seq_length in Hi.
  rewrite !(nth_indep _ 0 (g 0%nat)) by (rewrite map_length, seq_length; lia). rewrite !map_nth, !seq_nth by lia. apply H.
Qed.
Lemma tab_nth (g : nat -> R) n i : (i < n)%nat -> nth i (map g (seq 0 n)) 0 = g i.
Proof. intros H. rewrite (nth_indep _ 0 (g 0%nat)) by (rewrite map_length, seq_length; lia). rewrite map_nth, seq_nth by lia. reflexivity. Qed.
Lemma zs_increasing n : increasing (zs dz n).
Proof. apply tab_increasing. intros i. rewrite z_S. lra. Qed.
Lemma DL_table n : cDL (table ho om orad ol dz n) = map Fin (map L (seq 0 n)).
Proof.
  unfold cDL, table, zs. cbn [cDc cz]. rewrite !map_map. rewrite (map2_map (fun d z => nmul d (nadd (Fin 1) z)) (fun x => Fin (D x)) (fun x => Fin (INR x * dz))).
  rewrite (map2_ext _ (fun x y => Fin (D x * (1 + INR y * dz)))) by reflexivity. induction (seq 0 n); cbn [map2 map]; [auto|]. f_equal; auto.
Qed.

(** C43 *)
Lemma f_int a b : 0 <= a -> a <= b -> exists I, is_RInt f a b I /\ f b * (b - a) <= I <= f a * (b - a).
Proof.
  intros Ha Hb. assert (EX : ex_RInt f a b).
  { apply (ex_RInt_continuous (V := R_CompleteNormedModule)). intros z Hz. rewrite Rmin_left, Rmax_right in Hz by auto. apply (f_cont _ _ _ _ HF). lra. }
  destruct EX as [I HI]. exists I. split; auto. split.
  - pose proof (is_RInt_le (fun _ => f b) f a b ((b - a) * f b) I Hb (is_RInt_constR a b (f b)) HI) as G.
    cut ((b - a) * f b <= I); [lra|]. apply G. intros x Hx. apply (f_decr _ _ _ _ HF); lra.
  - pose proof (is_RInt_le f (fun _ => f a) a b I ((b - a) * f a) Hb HI (is_RInt_constR a b (f a))) as G.
    cut (I <= (b - a) * f a); [lra|]. apply G. intros x Hx. apply (f_decr _ _ _ _ HF); lra.
Qed.
Lemma D_error i : exists I, is_RInt f 0 (INR i * dz) I /\ Rabs (D i - I) <= dz / 2 * (f 0 - f (INR i * dz)).
Proof.
  induction i as [|i (I & HI & HE)].
  - exists 0. cbn [INR Dr]. rewrite Rmult_0_l. split; [apply (is_RInt_val _ _ _ _ _ (is_RInt_point f 0)); reflexivity|]. rewrite !Rminus_eq_0, Rabs_R0. lra.
  - pose proof (z_nonneg i). destruct (f_int (INR i * dz) (INR (S i) * dz)) as (J & HJ & B1 & B2); [lra|rewrite z_S; lra|].
    exists (I + J). split; [apply (is_RInt_ChaslesR f 0 (INR i * dz)); auto|]. rewrite D_S. rewrite z_S in *.
    set (z := INR i * dz) in *. replace (z + dz - z) with dz in * by ring. apply Rabs_le_between. apply Rabs_le_between in HE. lra.
Qed.
Lemma D_error_bound i : exists I, is_RInt f 0 (INR i * dz) I /\ Rabs (D i - I) <= light / ho * dz / 2.
Proof.
  destruct (D_error i) as (I & HI & HE). exists I. split; auto. pose proof (f_pos _ _ _ _ HF (INR i * dz) (z_nonneg i)) as P. unfold f in *. rewrite (f_0 _ _ _ _ HF) in HE. nra.
Qed.
End Flat.

(** C42 *)
Lemma tables_increase ho om orad ol zmax dz : flat ho om orad ol -> 0 < dz -> 0 < zmax ->
  exists c n Dc DL Vc, make_cosmo (Fin ho) (Fin om) (Fin orad) (Fin ol) (Fin zmax) (Fin dz) = Ok c /\ grid_points zmax dz n /\
    cz c = map Fin (map (fun i => INR i * dz) (seq 0 n)) /\ cDc c = map Fin Dc /\ cDL c = map Fin DL /\ cVc c = map Fin Vc /\
    length Dc = n /\ length DL = n /\ length Vc = n /\
    nth 0 Dc 0 = 0 /\ nth 0 DL 0 = 0 /\ nth 0 Vc 0 = 0 /\ increasing Dc /\ increasing DL /\ increasing Vc /\
    (forall i, (i < n)%nat -> nth i Dc 0 <= light / ho * (INR i * dz)).
Proof.
  intros HF Hdz Hz. destruct (points_exist dz Hdz zmax Hz) as [n Hn]. pose proof Hn as [Hn1 _].
  exists (table ho om orad ol dz n), n, (map (Dr ho om orad dz) (seq 0 n)), (map (L ho om orad dz) (seq 0 n)), (map (Vr ho om orad dz) (seq 0 n)).
  split; [apply make_table; auto|]. split; auto. split; [reflexivity|]. split; [reflexivity|]. split; [apply DL_table|]. split; [reflexivity|].
  rewrite !map_length, !seq_length. do 3 (split; [auto|]). rewrite !tab_nth by lia. split; [reflexivity|]. split; [unfold L; cbn; ring|]. split; [reflexivity|].
  split; [apply tab_increasing; intros; eapply D_step; eauto|]. split; [apply tab_increasing; intros; eapply L_step; eauto|]. split; [apply tab_increasing; intros; eapply V_step; eauto|].
  intros i Hi. rewrite tab_nth by auto. eapply D_bound; eauto.
Qed.
Lemma table_error ho om orad ol zmax dz c : flat ho om orad ol -> 0 < dz -> 0 < zmax ->
  make_cosmo (Fin ho) (Fin om) (Fin orad) (Fin ol) (Fin zmax) (Fin dz) = Ok c ->
  forall i, (i < length (cDc c))%nat -> exists d I, nth i (cDc c) NaN = Fin d /\ is_RInt (comoving_rate ho om orad) 0 (INR i * dz) I /\ Rabs (d - I) <= light / ho * dz / 2.
Proof.
  intros HF Hdz Hz H i Hi. destruct (points_exist dz Hdz zmax Hz) as [n Hn]. rewrite (make_table _ _ _ _ HF dz Hdz zmax n Hn) in H. injection H as <-.
  unfold table in *. cbn [cDc] in *. rewrite !map_length, seq_length in Hi. destruct (D_error_bound _ _ _ _ HF dz Hdz i) as (I & HI & HE).
  exists (Dr ho om orad dz i), I. rewrite map_map, nth_map_seq by auto. auto.
Qed.
