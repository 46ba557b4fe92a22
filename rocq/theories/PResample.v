(** Proofs about resample_injections. *)
From Coq Require Import Lia Lra.
From Verif Require Import PAnalysisSums PConstruct NumFacts ArrFacts.
From Verif Require Export SpecSelection.
Open Scope R_scope.

Lemma Forall2_nth_ {A B} (P : A -> B -> Prop) l m da db : Forall2 P l m -> forall k, (k < length l)%nat -> P (nth k l da) (nth k m db).
Proof. induction 1; intros k Hk; cbn in *; [lia|]. destruct k; auto. apply IHForall2. lia. Qed.
Lemma Forall2_len_ {A B} (P : A -> B -> Prop) l m : Forall2 P l m -> length l = length m.
Proof. induction 1; cbn; auto. Qed.
Lemma nth_put_at i (v : num) c j : (i < length c)%nat -> nth j (put_at i v c) NaN = if Nat.eqb j i then v else nth j c NaN.
Proof.
  revert i j. induction c as [|x r IH]; intros i j Hi; cbn in Hi; [lia|].
  destruct i as [|i]. { cbn. destruct j; auto. }
  destruct j as [|j]; [reflexivity|].
  change (put_at (S i) v (x :: r)) with (x :: put_at i v r). cbn [nth Nat.eqb]. apply IH. lia.
Qed.
Lemma put_at_len i (v : num) c : (i < length c)%nat -> length (put_at i v c) = length c.
Proof.
  revert i. induction c as [|x r IH]; intros i Hi; cbn in Hi; [lia|]. destruct i as [|i]; [reflexivity|].
  change (put_at (S i) v (x :: r)) with (x :: put_at i v r). cbn [length]. rewrite IH; lia.
Qed.
Lemma weights_nonneg mp i d ws : weights_are mp i d ws -> nonneg_list ws.
Proof.
  induction 1 as [|c w d ws (m & p & _ & _ & Hm & Hp & ->) H IH]; constructor; auto.
  apply Rmult_le_pos; auto. left. now apply Rinv_0_lt_compat.
Qed.
Lemma weights_model mp i d ws : weights_are mp i d ws -> map (fun c => ndiv (mp c) (nth i c NaN)) d = map Fin ws.
Proof.
  induction 1 as [|c w d ws (m & p & Hm & Hp & Hm0 & Hp0 & ->) H IH]; cbn [map]; auto. rewrite IH, Hm, Hp. f_equal. apply ndiv_fin. lra.
Qed.
Lemma nsum_sq' ws : nsum (map (fun w => nmul w w) (map Fin ws)) = Fin (sumsq ws).
Proof. rewrite map_map. cbn [nmul]. rewrite <- (map_map (fun w => (w * w)%R) Fin). apply nsum_fin. Qed.
Lemma floor_bounds x n : 1 <= x <= INR n -> (1 <= Int_part x)%Z /\ (Z.to_nat (Int_part x) <= n)%nat.
Proof.
  intros [A B]. destruct (base_Int_part x) as [I1 I2].
  assert (H1 : (1 <= Int_part x)%Z). { apply Z.lt_pred_le. apply lt_IZR. cbn. lra. }
  split; auto. apply INR_le. rewrite INR_IZR_INZ, Z2Nat.id by lia. lra.
Qed.
Theorem resample_ok mp i d ws N choice : weights_are mp i d ws -> 0 < Rlsum ws -> INR (length d) < N ->
  ignores_position mp i -> is_choice choice ->
  exists new k, resample_injections mp d (Fin N) i choice = Ok (new, k, Fin (mc_neff N ws)) /\
    (1 <= k <= length d)%nat /\ length new = k /\
    Forall (fun c' => exists c, In c d /\ length c' = length c /\ (forall j, j <> i -> nth j c' NaN = nth j c NaN) /\
                      ndiv (mp c') (nth i c' NaN) = Fin (mc_mu N ws)) new.
Proof.
  intros Hw Hs HN Hig Hch. pose proof (weights_nonneg _ _ _ _ Hw) as Hnn. pose proof (Forall2_len_ _ _ _ Hw) as Hlen.
  pose proof (sumsq_pos ws Hnn Hs) as Hq. pose proof (len_pos ws Hs) as Hl0. rewrite Hlen in *.
  unfold resample_injections. rewrite (weights_model _ _ _ _ Hw). cbv zeta. rewrite nsum_fin, nsum_sq', npowi_fin.
  unfold floor_div. rewrite (ndiv_fin (Rlsum ws ^ 2) (sumsq ws)) by lra. cbn [rbind].
  pose proof (ess_range ws Hnn Hs) as He. unfold ess in He. destruct (floor_bounds _ _ He) as [F1 F2].
  destruct (Z.ltb_spec (Int_part (Rlsum ws ^ 2 / sumsq ws)) 0) as [Hz|_]; [lia|].
  rewrite (ndiv_fin (Rlsum ws) N) by lra. set (mu := Rlsum ws / N). assert (Hmu : 0 < mu) by (unfold mu; apply Rdiv_lt_0_compat; lra).
  eexists. exists (Z.to_nat (Int_part (Rlsum ws ^ 2 / sumsq ws))). split; [|split; [|split]].
  - f_equal. f_equal. cbn [nmul]. rewrite (ndiv_fin (sumsq ws) (N * N)) by nra. rewrite (ndiv_fin (mu * mu) N) by lra. cbn [nsub nadd nneg].
    assert (Hv : 0 < mc_var N ws).
    { unfold mc_var, mc_mu. fold mu. pose proof (cs_le ws). assert (Rlsum ws = mu * N) by (unfold mu; field; lra).
      assert (INR (length ws) * sumsq ws < N * sumsq ws) by (apply Rmult_lt_compat_r; lra). assert (0 < N * sumsq ws - Rlsum ws ^ 2) by lra.
      replace (sumsq ws / N ^ 2 - mu ^ 2 / N) with ((N * sumsq ws - Rlsum ws ^ 2) / N ^ 3) by (unfold mu; field; lra).
      apply Rdiv_lt_0_compat; auto. apply pow_lt. lra. }
    assert (E : sumsq ws / (N * N) + - (mu * mu / N) = mc_var N ws) by (unfold mc_var, mc_mu; fold mu; unfold Rdiv; rewrite ?Rinv_mult; field; lra).
    rewrite E, ndiv_fin by lra. f_equal. unfold mc_neff, mc_mu. fold mu. field. lra.
  - split; [|exact F2]. apply Nat2Z.inj_le. rewrite Z2Nat.id; [exact F1|]. apply Z.le_trans with 1%Z; [easy|exact F1].
  - rewrite !map_length. apply Hch.
  - apply Forall_forall. intros c' Hc'. rewrite map_map in Hc'. apply in_map_iff in Hc' as (k & <- & Hk).
    apply Hch in Hk as [Hk Hp]. rewrite !map_length in Hk.
    assert (Hkd : (k < length d)%nat) by lia. set (c := nth k d []).
    destruct (Forall2_nth_ _ _ _ [] 0 Hw k Hkd) as (m & p & Em & Ep & Hm & Hp0 & Ewt). fold c in Em, Ep.
    assert (Hi : (i < length c)%nat). { destruct (Nat.lt_ge_cases i (length c)); auto. rewrite nth_overflow in Ep by auto. discriminate. }
    exists c. split; [apply nth_In; auto|]. split; [now apply put_at_len|]. split.
    + intros j Hj. rewrite nth_put_at by auto. destruct (Nat.eqb_spec j i); easy.
    + rewrite nth_put_at, Nat.eqb_refl by auto.
      rewrite (Hig (put_at i (ndiv (mp c) (Fin mu)) c) c) by (try apply put_at_len; auto; intros j Hj; rewrite nth_put_at by auto; destruct (Nat.eqb_spec j i); easy).
      rewrite Em, ndiv_fin by lra.
      assert (0 < m).
      { rewrite map_map in Hp. rewrite (nth_indep _ NaN (ndiv (Fin 0) (Fin (Rlsum ws)))) in Hp by (rewrite map_length; lia).
        rewrite (map_nth (fun x => ndiv (Fin x) (Fin (Rlsum ws))) ws 0 k) in Hp. rewrite ndiv_fin in Hp by lra.
        cbn in Hp. unfold Rltb in Hp. destruct (Rlt_dec _ _) as [Hlt|]; [|discriminate]. rewrite Ewt in Hlt.
        destruct (Rle_lt_or_eq_dec 0 m Hm); auto. subst m. unfold Rdiv in Hlt. rewrite !Rmult_0_l in Hlt. lra. }
      assert (m / mu <> 0) by (apply Rgt_not_eq, Rdiv_lt_0_compat; lra).
      rewrite ndiv_fin by auto. unfold mc_mu. fold mu. f_equal. field. split; lra.
Qed.
