(** A dilogarithm in the sense of SpecNewton exists. *)
From Coq Require Import Lia Lra.
From Verif Require Export PPriorsPush.
From Verif Require Export Spec.
Open Scope R_scope.

Definition dg (x : R) : R := if Req_EM_T x 0 then 1 else - ln (1 - x) / x.
Lemma dg_cont x : x < 1 -> continuous dg x.
Proof.
  intros H. destruct (Req_dec x 0) as [->|Hne].
  - assert (Dv : is_derive (fun t => - ln (1 - t)) 0 1) by (auto_derive; [lra|field]).
    apply is_derive_Reals in Dv. intros Q (e & He). destruct (Dv e (cond_pos e)) as (d & Hd).
    exists d. intros y. change R in (type of y). intros Hy. change (Rabs (y - 0) < d) in Hy. rewrite Rminus_0_r in Hy. apply He.
    change (Rabs (dg y - dg 0) < e). unfold dg. destruct (Req_EM_T 0 0); [|lra]. destruct (Req_EM_T y 0) as [|Hy0].
    + rewrite Rminus_eq_0, Rabs_R0. apply cond_pos.
    + specialize (Hd y Hy0 Hy). rewrite Rplus_0_l, Rminus_0_r, ln_1 in Hd. replace (- ln (1 - y) - - 0) with (- ln (1 - y)) in Hd by ring. exact Hd.
  - apply (continuous_ext_loc _ (fun t => - ln (1 - t) / t)).
    + assert (P : 0 < Rabs x) by (apply Rabs_pos_lt; auto). exists (mkposreal _ P). intros y. change R in (type of y). intros Hy. change (Rabs (y - x) < Rabs x) in Hy.
      unfold dg. destruct (Req_EM_T y 0) as [->|]; [|auto]. exfalso. rewrite Rminus_0_l, Rabs_Ropp in Hy. lra.
    + apply ex_derive_cont. auto_derive. lra.
Qed.
Definition dA (x : R) : R := RInt dg 0 x.
Lemma dA_derive x : x < 1 -> is_derive dA x (dg x).
Proof.
  intros H. unfold dA. apply is_derive_RInt with (a := 0); [|apply dg_cont; auto].
  assert (P : 0 < 1 - x) by lra. exists (mkposreal _ P). intros y. change R in (type of y). intros Hy. change (Rabs (y - x) < 1 - x) in Hy. apply Rabs_lt_between in Hy.
  apply @RInt_correct. apply @ex_RInt_continuous. intros z Hz. apply dg_cont. unfold Rmax in Hz. destruct Rle_dec in Hz; lra.
Qed.
Definition dm (x : R) : R := (x - 1) * ln (Rabs (x - 1)) - x.
Lemma dm_cont x : continuous dm x.
Proof.
  unfold dm. apply cminus; [|apply cid]. destruct (Req_dec x 1) as [->|Hne]; [apply xln_cont|].
  apply cmult; [apply cminus; [apply cid|apply cconst]|]. apply ex_derive_cont. eexists. apply lnabs_derive_sh. auto.
Qed.
Lemma dm_derive x : x <> 1 -> is_derive dm x (ln (Rabs (x - 1))).
Proof.
  intros H. pose proof (lnabs_derive_sh 1 x H) as L. unfold dm.
  replace (ln (Rabs (x - 1))) with ((1 * ln (Rabs (x - 1)) + (x - 1) * / (x - 1)) - 1) by (field; lra).
  apply @is_derive_minus; [|apply @is_derive_id].
  apply (is_derive_mult (fun t => t - 1) (fun t => ln (Rabs (t - 1)))); auto; [auto_derive; auto|intros; apply Rmult_comm].
Qed.
Definition dB (K x : R) : R := K - dm x / x - RInt (fun s => dm s / (s * s)) (1 / 2) x.
Lemma dq_cont x : 0 < x -> continuous (fun s => dm s / (s * s)) x.
Proof.
  intros H. change (continuous (fun s => dm s * / (s * s)) x). apply (cmult dm (fun s => / (s * s))); [apply dm_cont|]. apply ex_derive_cont. auto_derive. nra.
Qed.
Lemma dI_derive x : 0 < x -> is_derive (fun x => RInt (fun s => dm s / (s * s)) (1 / 2) x) x (dm x / (x * x)).
Proof.
  intros H. apply (is_derive_RInt (fun s => dm s / (s * s)) (fun x => RInt (fun s => dm s / (s * s)) (1 / 2) x) (1 / 2) x); [|apply dq_cont; auto].
  exists (mkposreal _ H). intros y. change R in (type of y). intros Hy. change (Rabs (y - x) < x) in Hy. apply Rabs_lt_between in Hy.
  apply @RInt_correct. apply @ex_RInt_continuous. intros z Hz. apply dq_cont. unfold Rmin in Hz. destruct Rle_dec in Hz; lra.
Qed.
Lemma dB_derive K x : 0 < x -> x <> 1 -> is_derive (dB K) x (- ln (Rabs (1 - x)) / x).
Proof.
  intros H H1. pose proof (dm_derive x H1) as L1. pose proof (dI_derive x H) as L2. unfold dB.
  set (II := fun x : R => RInt (fun s : R => dm s / (s * s)) (1 / 2) x). change (is_derive II x (dm x / (x * x))) in L2.
  change (is_derive (fun x => K - dm x / x - II x) x (- ln (Rabs (1 - x)) / x)).
  auto_derive; [repeat split; try (eexists; eassumption); lra|].
  change (Derive (fun x : R => dm x) x) with (Derive dm x). change (Derive (fun x : R => II x) x) with (Derive II x).
  rewrite (is_derive_unique _ _ _ L1), (is_derive_unique _ _ _ L2). replace (Rabs (1 - x)) with (Rabs (x - 1)) by (rewrite <- Rabs_Ropp; f_equal; ring). field. lra.
Qed.
Lemma dB_cont K x : 0 < x -> continuous (dB K) x.
Proof.
  intros H. unfold dB. apply cminus; [apply cminus; [apply cconst|]|].
  - change (continuous (fun s => dm s * / s) x). apply (cmult dm (fun s => / s)); [apply dm_cont|]. apply ex_derive_cont. auto_derive. lra.
  - apply ex_derive_cont. eexists. apply dI_derive; auto.
Qed.
Definition dK : R := dA (1 / 2) + dm (1 / 2) / (1 / 2).
Lemma dAB x : 0 < x < 1 -> dA x = dB dK x.
Proof.
  intros H.
  assert (E0 : dA (1 / 2) - dB dK (1 / 2) = 0).
  { unfold dB, dK. rewrite (RInt_point (V := R_CompleteNormedModule)). change zero with 0. field. }
  assert (Dz : forall y, 0 < y < 1 -> is_derive (fun y => dA y - dB dK y) y 0).
  { intros y Hy. replace 0 with (dg y - (- ln (Rabs (1 - y)) / y)).
    - apply @is_derive_minus; [apply dA_derive; lra|apply dB_derive; lra].
    - unfold dg. destruct Req_EM_T; [lra|]. rewrite Rabs_right by lra. ring. }
  assert (Cz : forall y, 0 < y < 1 -> continuous (fun y => dA y - dB dK y) y) by (intros y Hy; apply ex_derive_cont; eexists; apply Dz; auto).
  enough (dA x - dB dK x = 0) by lra. rewrite <- E0.
  destruct (Rtotal_order x (1 / 2)) as [Hl|[->|Hg]]; auto.
  - pose proof (mono_base (fun y => dA y - dB dK y) x (1 / 2) Hl ltac:(intros; apply Cz; lra) ltac:(intros y Hy; exists 0; split; [apply Dz; lra|lra])) as M1.
    pose proof (mono_base (fun y => - (dA y - dB dK y)) x (1 / 2) Hl ltac:(intros; apply @continuous_opp; apply Cz; lra)
      ltac:(intros y Hy; exists (-0); split; [apply @is_derive_opp; apply Dz; lra|lra])) as M2. cbv beta in *. lra.
  - assert (Hl : 1 / 2 < x) by lra. pose proof (mono_base (fun y => dA y - dB dK y) (1 / 2) x Hl ltac:(intros; apply Cz; lra) ltac:(intros y Hy; exists 0; split; [apply Dz; lra|lra])) as M1.
    pose proof (mono_base (fun y => - (dA y - dB dK y)) (1 / 2) x Hl ltac:(intros; apply @continuous_opp; apply Cz; lra)
      ltac:(intros y Hy; exists (-0); split; [apply @is_derive_opp; apply Dz; lra|lra])) as M2. cbv beta in *. lra.
Qed.
Definition dilog (x : R) : R := if Rlt_dec x (1 / 2) then dA x else dB dK x.
Lemma dilog_A x : x < 1 -> dilog x = dA x.
Proof. intros H. unfold dilog. destruct Rlt_dec; auto. symmetry. apply dAB. lra. Qed.
Lemma dilog_B x : 0 < x -> dilog x = dB dK x.
Proof. intros H. unfold dilog. destruct Rlt_dec; auto. apply dAB. lra. Qed.
Lemma near_A x : x < 1 -> locally x (fun y => dA y = dilog y).
Proof. intros H. assert (P : 0 < 1 - x) by lra. exists (mkposreal _ P). intros y. change R in (type of y). intros Hy. change (Rabs (y - x) < 1 - x) in Hy. apply Rabs_lt_between in Hy. symmetry. apply dilog_A. lra. Qed.
Lemma near_B x : 0 < x -> locally x (fun y => dB dK y = dilog y).
Proof. intros H. exists (mkposreal _ H). intros y. change R in (type of y). intros Hy. change (Rabs (y - x) < x) in Hy. apply Rabs_lt_between in Hy. symmetry. apply dilog_B. lra. Qed.
Lemma dilog_ok : dilogarithm dilog.
Proof.
  split; [|split].
  - rewrite dilog_A by lra. unfold dA. apply (RInt_point (V := R_CompleteNormedModule)).
  - intros x. destruct (Rlt_dec x 1) as [H|H].
    + apply (continuous_ext_loc _ dA); [apply near_A; auto|]. apply ex_derive_cont. eexists. apply dA_derive; auto.
    + apply (continuous_ext_loc _ (dB dK)); [apply near_B; lra|]. apply dB_cont. lra.
  - intros x H0 H1. destruct (Rlt_dec x 1) as [H|H].
    + apply (is_derive_ext_loc dA); [apply near_A; auto|]. replace (- ln (Rabs (1 - x)) / x) with (dg x); [apply dA_derive; auto|].
      unfold dg. destruct Req_EM_T; [lra|]. rewrite Rabs_right by lra. auto.
    + apply (is_derive_ext_loc (dB dK)); [apply near_B; lra|]. apply dB_derive; lra.
Qed.
