(** Proofs about [MCosmology]: the tables. *)
From Verif Require Export MCosmology Interp NumFacts ArrFacts SpecCosmology.
Open Scope R_scope.

Lemma floor_unique r k : IZR k <= r < IZR k + 1 -> Int_part r = k.
Proof.
  intros [H1 H2]. destruct (base_Int_part r) as [A B].
  assert (Int_part r < k + 1)%Z by (apply lt_IZR; rewrite plus_IZR; lra). assert (k < Int_part r + 1)%Z by (apply lt_IZR; rewrite plus_IZR; lra). lia.
Qed.

Section Flat.
Variables ho om orad ol : R.
Hypothesis HF : flat ho om orad ol.
Let params (c : cosmo) := Ho c = Fin ho /\ OmegaMatter c = Fin om /\ OmegaRadiation c = Fin orad /\ OmegaLambda c = Fin ol.
Let E2 z := (1 - om - orad) + om * (1 + z) ^ 3 + orad * (1 + z) ^ 4.
Let f := comoving_rate ho om orad.

Lemma E2_mono z w : 0 <= z -> z <= w -> E2 z <= E2 w.
Proof.
  intros Hz Hw. destruct HF as (_ & H1 & H2 & _). unfold E2.
  assert (P3 : (1 + z) ^ 3 <= (1 + w) ^ 3) by (apply pow_incr; lra). assert (P4 : (1 + z) ^ 4 <= (1 + w) ^ 4) by (apply pow_incr; lra). nra.
Qed.
Lemma E2_0 : E2 0 = 1.
Proof. unfold E2. ring. Qed.
Lemma E2_ge z : 0 <= z -> 1 <= E2 z.
Proof. intros H. rewrite <- E2_0. apply E2_mono; lra. Qed.
Lemma hub_ge z : 0 <= z -> 1 <= hubble om orad z.
Proof. intros H. unfold hubble. fold (E2 z). rewrite <- sqrt_1. apply sqrt_le_1_alt. apply E2_ge; auto. Qed.
Lemma coH_pos : 0 < light / ho.
Proof. destruct HF as (H & _). unfold light. apply Rdiv_lt_0_compat; lra. Qed.
Lemma f_pos z : 0 <= z -> 0 < f z.
Proof. intros H. unfold f, comoving_rate. pose proof (hub_ge z H). apply Rdiv_lt_0_compat; [apply coH_pos|lra]. Qed.
Lemma f_0 : f 0 = light / ho.
Proof. unfold f, comoving_rate, hubble. fold (E2 0). rewrite E2_0, sqrt_1. field. destruct HF; lra. Qed.
Lemma f_decr z w : 0 <= z -> z <= w -> f w <= f z.
Proof.
  intros Hz Hw. unfold f, comoving_rate. pose proof coH_pos. pose proof (hub_ge z Hz). unfold Rdiv. apply Rmult_le_compat_l; [unfold Rdiv in *; lra|].
  apply Rinv_le_contravar; [lra|]. unfold hubble. apply sqrt_le_1_alt. apply E2_mono; auto.
Qed.
Lemma f_le z : 0 <= z -> f z <= light / ho.
Proof. intros H. rewrite <- f_0. apply f_decr; lra. Qed.
Lemma f_cont z : 0 <= z -> continuous f z.
Proof.
  intros H. unfold f, comoving_rate. pose proof (hub_ge z H) as G. pose proof (E2_ge z H) as G2. apply ex_derive_cont. unfold hubble in *. unfold E2 in *. auto_derive. cbn [pow] in G, G2. repeat split; lra.
Qed.

(** ** the model's functions on real arguments *)
Lemma kappa c : params c -> OmegaKappa c = Fin 0.
Proof. intros (P1 & P2 & P3 & P4). unfold OmegaKappa. rewrite P2, P3, P4. rewrite !nadd_fin, nsub_fin. apply (f_equal Fin). destruct HF as (_ & _ & _ & E). lra. Qed.
Lemma z2E_real c z : params c -> 0 <= z -> z2E c (Fin z) = Fin (hubble om orad z).
Proof.
  intros P H. pose proof P as (P1 & P2 & P3 & P4). unfold z2E. rewrite (kappa c P), P2, P3, P4. rewrite !nadd_fin, !npowi_fin, !nmul_fin, !nadd_fin.
  pose proof (E2_ge z H) as G. assert (E : ol + 0 * (1 + z) ^ 2 + om * (1 + z) ^ 3 + orad * (1 + z) ^ 4 = E2 z) by (unfold E2; destruct HF as (_ & _ & _ & E); replace ol with (1 - om - orad) by lra; ring).
  rewrite E, npow_fin by lra. apply (f_equal Fin). unfold hubble. fold (E2 z). replace (1 / 2) with (/ 2) by lra. apply Rpower_sqrt. lra.
Qed.
Lemma dDcdz_real c z : params c -> 0 <= z -> dDcdz c (Fin z) = Fin (f z).
Proof.
  intros P H. unfold dDcdz. rewrite z2E_real by auto. unfold c_over_Ho. destruct P as (-> & _). pose proof (hub_ge z H). destruct HF as [HP _].
  rewrite (ndiv_fin C_SI) by lra. rewrite ndiv_fin by lra. reflexivity.
Qed.
Lemma dVcdz_real c z d : params c -> 0 <= z -> dVcdz_of c (Fin z) (Fin d) = Fin (4 * PI * d ^ 2 * f z).
Proof. intros P H. unfold dVcdz_of. rewrite dDcdz_real, npowi_fin, !nmul_fin by auto. reflexivity. Qed.

(** ** recurrences *)
Variable dz : R.
Hypothesis Hdz : 0 < dz.
Fixpoint Dr (i : nat) : R := match i with O => 0 | S j => Dr j + 1 / 2 * (f (INR j * dz) + f (INR j * dz + dz)) * dz end.
Definition vr i := 4 * PI * Dr i ^ 2 * f (INR i * dz).
Fixpoint Vr (i : nat) : R := match i with O => 0 | S j => Vr j + 1 / 2 * (vr j + 4 * PI * Dr (S j) ^ 2 * f (INR j * dz + dz)) * dz end.
Lemma INR_dz i : 0 <= INR i * dz.
Proof. pose proof (pos_INR i). nra. Qed.

Lemma set_nth_map g n i v : set_nth i v (map g (seq 0 n)) = map (fun j => if Nat.eqb j i then v else g j) (seq 0 n).
Proof.
  cut (forall a, set_nth i v (map g (seq a n)) = map (fun j => if Nat.eqb j (a + i) then v else g j) (seq a n)); [intros H; apply H|].
  revert i. induction n as [|n IH]; intros i a; [destruct i; reflexivity|]. cbn [seq map]. destruct i as [|i]; cbn [set_nth].
  - rewrite Nat.add_0_r, Nat.eqb_refl. f_equal. apply map_ext_in. intros j Hj. apply in_seq in Hj. destruct (Nat.eqb_spec j a); [lia|auto].
  - destruct (Nat.eqb_spec a (a + S i)); [lia|]. f_equal. rewrite IH. apply map_ext. intros j. replace (S a + i)%nat with (a + S i)%nat by lia. reflexivity.
Qed.
Lemma nth_map_seq g n i d : (i < n)%nat -> nth i (map g (seq 0 n)) d = g i :> num.
Proof. intros H. rewrite (nth_indep _ d (g 0%nat)) by (rewrite map_length, seq_length; auto). rewrite map_nth, seq_nth by auto. reflexivity. Qed.

Definition zt n := map (fun i => Fin (INR i * dz)) (seq 0 n).
Definition upto (g : nat -> R) k n := map (fun j => Fin (if Nat.leb j k then g j else 0)) (seq 0 n).
Lemma upto_0 g n : g 0%nat = 0 -> upto g 0 n = map (fun _ => Fin 0) (zt n).
Proof. intros H. unfold upto, zt. rewrite map_map. apply map_ext. intros [|j]; cbn; [rewrite H|]; auto. Qed.
Lemma upto_set g k n : set_nth (k + 1) (Fin (g (S k))) (upto g k n) = upto g (S k) n.
Proof.
  unfold upto. rewrite set_nth_map. apply map_ext. intros j. destruct (Nat.eqb_spec j (k + 1)) as [->|N].
  - destruct (Nat.leb_spec (k + 1) (S k)); [|lia]. replace (k + 1)%nat with (S k) by lia. auto.
  - apply (f_equal Fin). destruct (Nat.leb_spec j k), (Nat.leb_spec j (S k)); auto; lia.
Qed.
Lemma loop_inv c n k : params c -> (k < n)%nat ->
  fold_left (fun x i => update c i x) (seq 0 k) (zt n, upto Dr 0 n, upto Vr 0 n) = (zt n, upto Dr k n, upto Vr k n).
Proof.
  intros P. induction k as [|k IH]; intros H; [reflexivity|]. rewrite seq_S, fold_left_app, IH by lia. cbn [fold_left]. unfold update.
  assert (E1 : nsub (nth 1 (zt n) NaN) (nth 0 (zt n) NaN) = Fin dz).
  { unfold zt. rewrite !nth_map_seq by lia. rewrite nsub_fin. apply (f_equal Fin). cbn. ring. }
  rewrite E1. cbn [Nat.add]. assert (EZ : nth k (zt n) NaN = Fin (INR k * dz)) by (unfold zt; rewrite nth_map_seq by lia; auto). rewrite EZ.
  assert (ED : nth k (upto Dr k n) NaN = Fin (Dr k)) by (unfold upto; rewrite nth_map_seq by lia; rewrite Nat.leb_refl; auto).
  assert (EV : nth k (upto Vr k n) NaN = Fin (Vr k)) by (unfold upto; rewrite nth_map_seq by lia; rewrite Nat.leb_refl; auto).
  pose proof (INR_dz k). rewrite ED, EV, nadd_fin, !dDcdz_real, !dVcdz_real by (auto; lra). rewrite !nadd_fin, !nmul_fin, nadd_fin.
  change (Dr k + 1 / 2 * (f (INR k * dz) + f (INR k * dz + dz)) * dz) with (Dr (S k)). rewrite upto_set.
  assert (ED' : nth (k + 1) (upto Dr (S k) n) NaN = Fin (Dr (S k))).
  { unfold upto. rewrite nth_map_seq by lia. replace (k + 1)%nat with (S k) by lia. rewrite Nat.leb_refl. auto. }
  rewrite ED', dVcdz_real by (auto; lra). rewrite nadd_fin, !nmul_fin, nadd_fin.
  change (Vr k + 1 / 2 * (4 * PI * Dr k ^ 2 * f (INR k * dz) + 4 * PI * Dr (S k) ^ 2 * f (INR k * dz + dz)) * dz) with (Vr (S k)). rewrite upto_set. reflexivity.
Qed.
Lemma upto_full g n : (1 <= n)%nat -> upto g (n - 1) n = map Fin (map g (seq 0 n)).
Proof. intros H. unfold upto. rewrite map_map. apply map_ext_in. intros j Hj. apply in_seq in Hj. destruct (Nat.leb_spec j (n - 1)); [auto|lia]. Qed.

Lemma arange_points zmax n : grid_points zmax dz n -> arange (Fin zmax) (Fin dz) = Ok (zt n).
Proof.
  intros (H1 & H2 & H3). unfold arange. rewrite Reqb_f by lra. unfold zt. replace (Z.to_nat (ceilZ (zmax / dz))) with n; auto.
  unfold ceilZ. assert (E : Int_part (- (zmax / dz)) = (- Z.of_nat n)%Z).
  { apply floor_unique. rewrite opp_IZR, <- INR_IZR_INZ. rewrite minus_INR in H2 by lia. cbn [INR] in H2.
    assert (zmax / dz <= INR n) by (apply (Rmult_le_reg_r dz); auto; unfold Rdiv; rewrite Rmult_assoc, Rinv_l by lra; lra).
    assert (INR n - 1 < zmax / dz) by (apply (Rmult_lt_reg_r dz); auto; unfold Rdiv; rewrite Rmult_assoc, Rinv_l by lra; lra). lra. }
  rewrite E. lia.
Qed.
Lemma points_exist zmax : 0 < zmax -> exists n, grid_points zmax dz n.
Proof.
  intros H. set (m := ceilZ (zmax / dz)). assert (HM : IZR m - 1 < zmax / dz <= IZR m).
  { unfold m, ceilZ. rewrite opp_IZR. pose proof (base_Int_part (- (zmax / dz))). lra. }
  assert (P : 0 < zmax / dz) by (apply Rdiv_lt_0_compat; auto). assert (0 < m)%Z by (apply lt_IZR; lra). exists (Z.to_nat m).
  assert (EI : INR (Z.to_nat m) = IZR m) by (rewrite INR_IZR_INZ, Z2Nat.id by lia; auto).
  split; [lia|]. rewrite minus_INR by lia. rewrite EI. cbn [INR].
  assert (EZ : zmax = zmax / dz * dz) by (field; lra). split; rewrite EZ at 1; [apply Rmult_lt_compat_r|apply Rmult_le_compat_r]; lra.
Qed.

Definition zs n := map (fun i => INR i * dz) (seq 0 n).
Lemma zt_zs n : zt n = map Fin (zs n).
Proof. unfold zt, zs. rewrite map_map. auto. Qed.
(** the state of an object whose table has n points *)
Definition table (n : nat) : cosmo := Cosmo (Fin ho) (Fin om) (Fin orad) (Fin ol) (map Fin (zs n)) (map Fin (map Dr (seq 0 n))) (map Fin (map Vr (seq 0 n))).
Lemma extend_table c zmax n : params c -> grid_points zmax dz n -> extend c (Fin zmax) (Fin dz) = Ok (table n).
Proof.
  intros P H. unfold extend. rewrite (arange_points zmax n H). cbn [rbind]. destruct H as [H _].
  assert (L : length (zt n) = n) by (unfold zt; rewrite map_length, seq_length; auto). rewrite L.
  pose proof (loop_inv c n (n - 1) P ltac:(lia)) as LI. rewrite (upto_0 Vr n eq_refl), (upto_0 Dr n eq_refl) in LI. rewrite LI.
  destruct P as (-> & -> & -> & ->). unfold table. rewrite zt_zs, !upto_full by auto. reflexivity.
Qed.
Lemma make_table zmax n : grid_points zmax dz n -> make_cosmo (Fin ho) (Fin om) (Fin orad) (Fin ol) (Fin zmax) (Fin dz) = Ok (table n).
Proof.
  intros H. unfold make_cosmo. assert (P : params (Cosmo (Fin ho) (Fin om) (Fin orad) (Fin ol) [] [] [])) by (repeat split).
  rewrite (kappa _ P). cbn [neqb]. rewrite Reqb_t by auto. apply extend_table; auto.
Qed.
Lemma table_params n : params (table n).
Proof. repeat split. Qed.
End Flat.
