(** An integer number of injections above 46340 always changes the effective number. *)
From Coq Require Import Lia Lra ZArith.
From Verif Require Import ArrFacts NumFacts PAnalysisSums SpecAnalysis.
From Verif Require Import Spec.
Open Scope R_scope.

Lemma wrap_ne z : (46340 < z < 2 ^ 31)%Z -> int32_wrap (z * z) <> (z * z)%Z.
Proof.
  intros H E. assert (B : (int32_wrap (z * z) < 2 ^ 31)%Z).
  { unfold int32_wrap. pose proof (Z.mod_pos_bound (z * z + 2 ^ 31) (2 ^ 32) ltac:(lia)). lia. }
  assert ((46341 * 46341 <= z * z)%Z) by nia. lia.
Qed.
Lemma int_differs log ws z : nonneg_list ws -> 0 < Rlsum ws -> INR (length ws) < IZR z -> (46340 < z < 2 ^ 31)%Z ->
  exists mu ne ne' v v', detection_efficiency log (enc log ws) (CFloat (Fin (IZR z))) = Ok (mu, Fin ne, v) /\
    detection_efficiency log (enc log ws) (CInt z) = Ok (mu, ne', v') /\ ne' <> Fin ne.
Proof.
  intros H P L Hz. assert (N0 : 0 < IZR z) by (apply (IZR_lt 0); lia).
  assert (EM : detection_efficiency log (enc log ws) (CInt z) = detection_efficiency false (enc false ws) (CInt z)).
  { destruct log; auto. apply de_modes with (N := IZR z); auto. left. exists z. repeat split; auto; lia. }
  rewrite EM, de_val by auto. set (N := IZR z) in *. pose proof (mc_var_pos N ws H P L) as V. assert (M : 0 < mc_mu N ws) by (unfold mc_mu; apply Rdiv_lt_0_compat; lra).
  pose proof (sumsq_pos ws H P) as Q. exists (Fin (ln (mc_mu N ws))), (ln (mc_neff N ws)). 
  unfold detection_efficiency, count_num, enc. destruct (Z.leb_spec (- 2 ^ 31) z); [|lia]. destruct (Z.ltb_spec z (2 ^ 31)); [|lia]. cbn [andb rbind].
  rewrite nsum_fin, nsum_sq. fold N. rewrite (ndiv_fin (Rlsum ws) N) by lra. fold (mc_mu N ws). rewrite npowi_fin, (ndiv_fin (mc_mu N ws ^ 2) N) by lra. rewrite (nlog_fin (mc_mu N ws)) by auto. rewrite nmul_fin.
  do 3 eexists. split; [reflexivity|]. split; [reflexivity|].
  assert (E : ln (mc_neff N ws) = 2 * ln (mc_mu N ws) - ln (mc_var N ws)).
  { unfold mc_neff. rewrite ln_div by (auto; apply pow_lt; auto). simpl pow. rewrite Rmult_1_r, ln_mult by auto. ring. }
  rewrite E. set (W := int32_wrap (z * z)). assert (WN : IZR W <> N ^ 2).
  { intros C. unfold N in C. cbn [pow] in C. rewrite Rmult_1_r, <- mult_IZR in C. apply eq_IZR in C. apply (wrap_ne z Hz). exact C. }
  destruct (Req_dec (IZR W) 0) as [W0|W0].
  - rewrite W0. replace (ndiv (Fin (sumsq ws)) (Fin 0)) with PInf; [cbn; discriminate|]. cbn. rewrite Reqb_t by lra. rewrite sinf_pos by lra. reflexivity.
  - rewrite ndiv_fin, nsub_fin by auto. set (v := _ - _). unfold nlog. destruct (Rltb 0 v) eqn:G.
    + apply Rltb_true in G. rewrite nsub_fin. intros C. injection C as C. assert (C' : ln v = ln (mc_var N ws)) by lra. apply ln_inv in C'; auto.
      unfold v, mc_var in C'. assert (C2 : sumsq ws / IZR W = sumsq ws / N ^ 2) by lra. apply WN. assert (0 < N ^ 2) by (apply pow_lt; auto).
      unfold Rdiv in C2. apply Rmult_eq_reg_l in C2; [|lra]. rewrite <- (Rinv_inv (IZR W)), C2, Rinv_inv. reflexivity.
    + destruct (Reqb v 0); cbn; discriminate.
Qed.
Lemma int_exactly log ws z : nonneg_list ws -> 0 < Rlsum ws -> INR (length ws) < IZR z -> (0 < z < 2 ^ 31)%Z ->
  (detection_efficiency log (enc log ws) (CInt z) = detection_efficiency log (enc log ws) (CFloat (Fin (IZR z))) <-> (z <= 46340)%Z).
Proof.
  intros H P L Hz. split.
  - intros E. destruct (Z_le_gt_dec z 46340) as [G|G]; auto. destruct (int_differs log ws z H P L ltac:(lia)) as (mu & ne & ne' & v & v' & A & B & C).
    exfalso. rewrite A, B in E. injection E as E1 E2. auto.
  - intros G. apply de_int. lia.
Qed.
