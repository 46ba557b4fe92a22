(** Proofs about the isotropic chi_p prior of [MPriors]. *)
From Verif Require Export NumFacts ArrFacts MPriors Spec Calc PPriorsAligned.
Open Scope R_scope.

(** density and distribution function of (magnitude * sin tilt) for a magnitude uniform on [0,c] and an
    isotropic tilt *)
Definition cf (c s : R) : R := acos (s / c) / c.
Definition cF (c s : R) : R := (c - sqrt (c ^ 2 - s ^ 2) + s * acos (s / c)) / c.

Section One.
Variable c : R.
Hypothesis Hc : 0 < c.
Lemma sc_gt s : - c < s -> -1 < s / c.
Proof. intros. apply Rdiv_cross_gt; lra. Qed.
Lemma cf_cont s : 0 <= s -> continuous (cf c) s.
Proof.
  intros Hs. unfold cf. apply cont_mult; [|apply cont_const].
  apply (cont_comp (fun t => t / c) acos); [apply cont_mult; [apply cont_id|apply cont_const]|].
  apply cont_acos, sc_gt. lra.
Qed.
Lemma cF_cont s : 0 <= s -> continuous (cF c) s.
Proof.
  intros Hs. unfold cF. apply cont_mult; [|apply cont_const]. apply cont_plus.
  - apply cont_minus; [apply cont_const|].
    apply (cont_comp (fun t => c ^ 2 - t ^ 2) sqrt); [|apply cont_sqrt]. apply ex_derive_cont. auto_derive. auto.
  - apply cont_mult; [apply cont_id|].
    apply (cont_comp (fun t => t / c) acos); [apply cont_mult; [apply cont_id|apply cont_const]|].
    apply cont_acos, sc_gt. lra.
Qed.
Lemma cF_derive s : 0 < s < c -> is_derive (cF c) s (cf c s).
Proof.
  intros Hs. unfold cF, cf.
  assert (H1 : -1 < s / c < 1) by (split; [apply sc_gt; lra|apply Rdiv_cross_lt; lra]).
  assert (Hsq : 0 < c ^ 2 - s ^ 2) by nra.
  assert (E : sqrt (1 - (s / c) ^ 2) = sqrt (c ^ 2 - s ^ 2) / c).
  { replace (1 - (s / c) ^ 2) with ((c ^ 2 - s ^ 2) / c ^ 2) by (field; lra).
    rewrite sqrt_div by nra. f_equal. rewrite <- (sqrt_pow2 c) at 2 by lra. reflexivity. }
  assert (Hs0 : 0 < sqrt (c ^ 2 - s ^ 2)) by (apply sqrt_lt_R0; auto).
  assert (D1 : is_derive (fun t => acos (t / c)) s (/ c * (- / sqrt (1 - (s / c) ^ 2)))).
  { apply (is_derive_comp (V := R_NormedModule) acos (fun t => t / c)); [apply is_derive_acos; auto|].
    auto_derive; auto. field. lra. }
  assert (D2 : is_derive (fun t => sqrt (c ^ 2 - t ^ 2)) s (- s / sqrt (c ^ 2 - s ^ 2))).
  { auto_derive; [nra|]. replace (c * (c * 1) + - (s * (s * 1))) with (c ^ 2 - s ^ 2) by ring. field. lra. }
  apply (is_derive_ext_val _ _ ((0 - (- s / sqrt (c ^ 2 - s ^ 2)) + (1 * acos (s / c) + s * (/ c * (- / sqrt (1 - (s / c) ^ 2))))) * / c)).
  2:{ rewrite E. req. field. lra. }
  apply (is_derive_scal_l (K := R_AbsRing) (V := R_NormedModule) (fun t => c - sqrt (c ^ 2 - t ^ 2) + t * acos (t / c)) s _ (/ c)).
  apply (is_derive_plus (V := R_NormedModule) (fun t => c - sqrt (c ^ 2 - t ^ 2)) (fun t => t * acos (t / c))).
  - apply (is_derive_minus (V := R_NormedModule) (fun t => c) (fun t => sqrt (c ^ 2 - t ^ 2))); [apply (is_derive_const (V := R_NormedModule))|exact D2].
  - apply (is_derive_mult (fun t => t) (fun t => acos (t / c)) s 1); [apply (is_derive_id (K := R_AbsRing))|exact D1|].
    intros; apply Rmult_comm.
Qed.
Lemma cF_0 : cF c 0 = 0.
Proof. unfold cF. replace (c ^ 2 - 0 ^ 2) with (c ^ 2) by ring. rewrite sqrt_pow2 by lra. field. lra. Qed.
Lemma cF_end s : c <= s -> cF c s = 1.
Proof.
  intros. unfold cF. rewrite sqrt_neg_0 by nra. rewrite acos_ge_1 by (apply Rdiv_cross_ge; lra). field. lra.
Qed.
Lemma cf_end s : c <= s -> cf c s = 0.
Proof. intros. unfold cf. rewrite acos_ge_1 by (apply Rdiv_cross_ge; lra). field. lra. Qed.
Lemma cf_nonneg s : 0 <= cf c s.
Proof. unfold cf. apply Rdiv_le_0_compat; auto. apply acos_bound. Qed.
Lemma cF_nonneg s : 0 <= s -> 0 <= cF c s.
Proof.
  intros. unfold cF. apply Rdiv_le_0_compat; auto.
  assert (sqrt (c ^ 2 - s ^ 2) <= c).
  { rewrite <- (sqrt_pow2 c) at 2 by lra. apply sqrt_le_1_alt. nra. }
  pose proof (proj1 (acos_bound (s / c))). nra.
Qed.
(** cF is the distribution function: average over the magnitude u of P(sin tilt <= s/u) *)
Lemma cF_cdf s : 0 <= s <= c -> is_RInt (fun u => (1 - sqrt (1 - (Rmin 1 (s / u)) ^ 2)) / c) 0 c (cF c s).
Proof.
  intros Hs. apply (is_RInt_val _ _ _ ((s - 0) * (/ c) + (cF c s - s / c))); [|field; lra].
  apply (is_RInt_ChaslesR _ _ s).
  - apply (is_RInt_ext_open (fun _ => / c)); [lra| |apply is_RInt_constR].
    intros u Hu. rewrite Rmin_left by (apply Rdiv_cross_ge; lra). replace (1 - 1 ^ 2) with 0 by ring. rewrite sqrt_0. field. lra.
  - destruct (Rle_lt_or_eq_dec 0 s) as [Hs0|Hs0]; [lra| |].
    + apply (is_RInt_ext_open (fun u => (1 - sqrt (u ^ 2 - s ^ 2) / u) / c)); [lra| |].
      { intros u Hu. rewrite Rmin_right by (apply Rdiv_cross; lra).
        replace (1 - (s / u) ^ 2) with ((u ^ 2 - s ^ 2) / u ^ 2) by (field; lra).
        rewrite sqrt_div by nra. rewrite (sqrt_pow2 u) by lra. reflexivity. }
      apply (FTC_open_eq (fun u => (u - sqrt (u ^ 2 - s ^ 2) + s * acos (s / u)) / c)); [lra| | | |].
      * intros u Hu. apply cont_mult; [|apply cont_const]. apply cont_plus.
        -- apply cont_minus; [apply cont_id|]. apply (cont_comp (fun t => t ^ 2 - s ^ 2) sqrt); [|apply cont_sqrt].
           apply ex_derive_cont. auto_derive. auto.
        -- apply cont_scal. apply (cont_comp (fun t => s / t) acos); [apply cont_scal, cont_inv; lra|].
           apply cont_acos. apply Rlt_le_trans with 0; [lra|]. apply Rdiv_le_0_compat; lra.
      * intros u Hu.
        assert (H1 : -1 < s / u < 1) by (split; [apply Rlt_le_trans with 0; [lra|apply Rdiv_le_0_compat; lra]|apply Rdiv_cross_lt; lra]).
        assert (Hsq : 0 < u ^ 2 - s ^ 2) by nra.
        assert (E : sqrt (1 - (s / u) ^ 2) = sqrt (u ^ 2 - s ^ 2) / u).
        { replace (1 - (s / u) ^ 2) with ((u ^ 2 - s ^ 2) / u ^ 2) by (field; lra).
          rewrite sqrt_div by nra. f_equal. rewrite <- (sqrt_pow2 u) at 2 by lra. reflexivity. }
        assert (Hq0 : 0 < sqrt (u ^ 2 - s ^ 2)) by (apply sqrt_lt_R0; auto).
        assert (D1 : is_derive (fun t => acos (s / t)) u ((- s / u ^ 2) * (- / sqrt (1 - (s / u) ^ 2)))).
        { apply (is_derive_comp (V := R_NormedModule) acos (fun t => s / t)); [apply is_derive_acos; auto|].
          auto_derive; [lra|]. field. lra. }
        assert (D2 : is_derive (fun t => sqrt (t ^ 2 - s ^ 2)) u (u / sqrt (u ^ 2 - s ^ 2))).
        { auto_derive; [nra|]. replace (u * (u * 1) + - (s * (s * 1))) with (u ^ 2 - s ^ 2) by ring. field. lra. }
        apply (is_derive_ext_val _ _ ((1 - u / sqrt (u ^ 2 - s ^ 2) + s * ((- s / u ^ 2) * (- / sqrt (1 - (s / u) ^ 2)))) * / c)).
        2:{ rewrite E. req.
            assert (W : sqrt (u ^ 2 - s ^ 2) * sqrt (u ^ 2 - s ^ 2) = u ^ 2 - s ^ 2) by (apply sqrt_sqrt; lra).
            set (w := sqrt (u ^ 2 - s ^ 2)) in *.
            replace (s * (- s / u ^ 2 * - / (w / u))) with ((u ^ 2 - w * w) / (u * w)) by (rewrite W; field; lra).
            field. lra. }
        apply (is_derive_scal_l (K := R_AbsRing) (V := R_NormedModule) (fun t => t - sqrt (t ^ 2 - s ^ 2) + s * acos (s / t)) u _ (/ c)).
        apply (is_derive_plus (V := R_NormedModule) (fun t => t - sqrt (t ^ 2 - s ^ 2)) (fun t => s * acos (s / t))).
        -- apply (is_derive_minus (V := R_NormedModule) (fun t => t) (fun t => sqrt (t ^ 2 - s ^ 2))); [apply (is_derive_id (K := R_AbsRing))|exact D2].
        -- apply (is_derive_scal (fun t => acos (s / t)) u s). exact D1.
      * intros u Hu. apply cont_mult; [|apply cont_const]. apply cont_minus; [apply cont_const|].
        apply cont_mult; [|apply cont_inv; lra]. apply (cont_comp (fun t => t ^ 2 - s ^ 2) sqrt); [|apply cont_sqrt].
        apply ex_derive_cont. auto_derive. auto.
      * unfold cF. replace (s ^ 2 - s ^ 2) with 0 by ring. rewrite sqrt_0. replace (s / s) with 1 by (field; lra).
        rewrite acos_1. field. lra.
    + subst s. apply (is_RInt_ext_open (fun _ => 0)); [lra| |].
      * intros u Hu. replace (0 / u) with 0 by (field; lra). rewrite Rmin_right by lra.
        replace (1 - 0 ^ 2) with 1 by ring. rewrite sqrt_1. field. lra.
      * apply (is_RInt_val _ _ _ ((c - 0) * 0)); [apply is_RInt_constR|]. rewrite cF_0. field. lra.
Qed.
End One.

Section Chip.
Variables q a : R.
Hypothesis Hq : 0 < q <= 1.
Hypothesis Ha : 0 < a.
Definition chw : R := q * (3 + 4 * q) / (4 + 3 * q).
Lemma chw_range : 0 < chw <= 1.
Proof.
  unfold chw. split; [apply Rdiv_lt_0_compat; nra|]. apply Rdiv_cross; nra.
Qed.
Let A := chw * a.
Lemma A_range : 0 < A <= a. Proof. pose proof chw_range. unfold A. nra. Qed.
Definition chp (s : R) : R := cf A s * cF a s + cf a s * cF A s.

Lemma chip_prior_fin s : 0 <= s -> chi_p_prior_from_isotropic_spins (Fin s) (Fin q) (Fin a) = Fin (chp s).
Proof.
  intros Hs. pose proof A_range as HA. pose proof chw_range as Hw.
  unfold chi_p_prior_from_isotropic_spins.
  rewrite !nmul_fin, !nadd_fin, !npowi_fin, !nmul_fin, !nsub_fin.
  assert (E : q * a * (3 + 4 * q) / (4 + 3 * q) = A) by (unfold A, chw; field; lra).
  rewrite (ndiv_fin (q * a * (3 + 4 * q))) by lra. rewrite E. unfold nge. cbn [nlt nle].
  rcase.
  - assert (Hd1 : a ^ 2 * q <> 0) by (apply Rgt_not_eq, Rmult_lt_0_compat; nra).
    assert (Hd2 : (3 + 4 * q) * q * a <> 0) by (apply Rgt_not_eq, Rmult_lt_0_compat; nra).
    assert (Hd3 : (3 + 4 * q) * a * q <> 0) by (apply Rgt_not_eq, Rmult_lt_0_compat; nra).
    rewrite !ndiv_fin by (auto; lra).
    assert (E1 : (4 + 3 * q) * s / ((3 + 4 * q) * q * a) = s / A) by (unfold A, chw; field; lra).
    assert (E2 : (4 + 3 * q) * s / ((3 + 4 * q) * a * q) = s / A) by (unfold A, chw; field; lra).
    rewrite E1, E2.
    assert (R1 : 0 <= s / A <= 1) by (split; [apply Rdiv_le_0_compat; lra|apply Rdiv_cross; lra]).
    assert (R2 : 0 <= s / a <= 1) by (split; [apply Rdiv_le_0_compat; lra|apply Rdiv_cross; lra]).
    unfold nacos. rewrite !Rleb_t by lra. cbn [andb].
    rewrite !npowi_fin, !nmul_fin, !nsub_fin.
    assert (E3 : a ^ 2 * q ^ 2 * ((3 + 4 * q) / (4 + 3 * q)) ^ 2 = A ^ 2) by (unfold A, chw; field; lra).
    rewrite E3. rewrite !nsqrt_fin by nra. rewrite !nsub_fin, !nadd_fin, !nmul_fin, !nadd_fin, !nmul_fin.
    apply (f_equal Fin). unfold chp, cf, cF.
    replace (a * q * (3 + 4 * q) / (4 + 3 * q)) with A by (unfold A, chw; field; lra).
    replace (1 / (a ^ 2 * q) * ((4 + 3 * q) / (3 + 4 * q))) with (1 / (A * a)) by (unfold A, chw; field; lra).
    field. lra.
  - cbn [andb]. rewrite (Rleb_t A s) by lra. cbn [andb]. rcase.
    + rewrite !ndiv_fin by lra.
      assert (R2 : 0 <= s / a <= 1) by (split; [apply Rdiv_le_0_compat; lra|apply Rdiv_cross; lra]).
      unfold nacos. rewrite !Rleb_t by lra. cbn [andb]. rewrite nmul_fin. apply (f_equal Fin).
      unfold chp. rewrite cf_end, (cF_end A) by lra. unfold cf. field. lra.
    + apply (f_equal Fin). unfold chp. rewrite !cf_end by lra. ring.
Qed.
Lemma chp_cont s : 0 <= s -> continuous chp s.
Proof.
  intros Hs. pose proof A_range. unfold chp.
  apply cont_plus; apply cont_mult; auto using cf_cont, cF_cont; (apply cf_cont || apply cF_cont); lra.
Qed.
Lemma chp_nonneg s : 0 <= s -> 0 <= chp s.
Proof.
  intros. pose proof A_range. unfold chp. fold A.
  apply Rplus_le_le_0_compat; apply Rmult_le_pos; (apply cf_nonneg || apply cF_nonneg); lra.
Qed.
Lemma chp_cdf s : 0 <= s <= a -> is_RInt chp 0 s (cF a s * cF A s).
Proof.
  intros Hs. pose proof A_range as HA.
  assert (Low : forall t, 0 <= t <= A -> is_RInt chp 0 t (cF a t * cF A t)).
  { intros t Ht. apply (FTC_open_eq (fun x => cF a x * cF A x)); [lra| | | |].
    - intros x Hx. apply cont_mult; apply cF_cont; lra.
    - intros x Hx. unfold chp.
      apply (is_derive_ext_val _ _ (cf a x * cF A x + cF a x * cf A x)); [|req; ring].
      apply (is_derive_mult (cF a) (cF A) x); [apply cF_derive; lra|apply cF_derive; lra|intros; apply Rmult_comm].
    - intros x Hx. apply chp_cont. lra.
    - rewrite !cF_0 by lra. ring. }
  destruct (Rle_lt_dec s A) as [Hle|Hlt]; [apply Low; lra|].
  apply (is_RInt_val _ _ _ (cF a A * cF A A + (cF a s - cF a A))).
  2:{ rewrite !(cF_end A) by lra. ring. }
  apply (is_RInt_ChaslesR _ _ A); [apply Low; lra|].
  apply (FTC_open_eq (cF a)); [lra| | | |reflexivity].
  - intros x Hx. apply cF_cont; lra.
  - intros x Hx. apply (is_derive_ext_val _ _ (cf a x)); [apply cF_derive; lra|].
    unfold chp. fold A; rewrite (cf_end A), (cF_end A) by lra. req. ring.
  - intros x Hx. apply chp_cont; lra.
Qed.
End Chip.

Lemma chip_prior_density q a : 0 < q <= 1 -> 0 < a ->
  exists f : R -> R,
    (forall x, 0 <= x -> chi_p_prior_from_isotropic_spins (Fin x) (Fin q) (Fin a) = Fin (f x)) /\
    (forall x, 0 <= x -> 0 <= f x) /\ (forall x, a <= x -> f x = 0) /\
    (forall x, 0 <= x -> continuous f x) /\ is_RInt f 0 a 1.
Proof.
  intros Hq Ha. pose proof (A_range q a Hq Ha) as HA. exists (chp q a). repeat split.
  - intros. apply chip_prior_fin; auto.
  - intros. apply chp_nonneg; auto.
  - intros. unfold chp. rewrite !cf_end by lra. ring.
  - intros. apply chp_cont; auto.
  - apply (is_RInt_val _ _ _ (cF a a * cF (chw q * a) a)); [apply chp_cdf; auto; lra|].
    rewrite !cF_end by lra. ring.
Qed.
Lemma chip_prior_is_max_density q a : 0 < q <= 1 -> 0 < a -> forall s, 0 <= s <= a ->
  exists f P1 P2,
    (forall x, 0 <= x -> chi_p_prior_from_isotropic_spins (Fin x) (Fin q) (Fin a) = Fin (f x)) /\
    perp_spin_cdf a s P1 /\ perp_spin_cdf (q * (3 + 4 * q) / (4 + 3 * q) * a) (Rmin s (q * (3 + 4 * q) / (4 + 3 * q) * a)) P2 /\
    is_RInt f 0 s (P1 * P2).
Proof.
  intros Hq Ha s Hs. pose proof (A_range q a Hq Ha) as HA. fold (chw q). set (A := chw q * a) in *.
  exists (chp q a), (cF a s), (cF A s). split; [intros; apply chip_prior_fin; auto|].
  split; [apply cF_cdf; auto|]. split; [|apply chp_cdf; auto].
  unfold Rmin. destruct (Rle_dec s A) as [H|H].
  - apply cF_cdf; lra.
  - rewrite (cF_end A) by lra. rewrite <- (cF_end A ltac:(lra) A) by lra. apply cF_cdf; lra.
Qed.
Lemma chip_prior_negative : exists v, chi_p_prior_from_isotropic_spins (Fin (-1)) (Fin 1) (Fin 1) = Fin v /\ v < 0.
Proof.
  unfold chi_p_prior_from_isotropic_spins.
  rewrite !nmul_fin, !nadd_fin, !npowi_fin, !nmul_fin, !nsub_fin.
  rewrite (ndiv_fin (1 * 1 * (3 + 4 * 1))) by lra. cbn [nlt]. rewrite Rltb_t by lra.
  rewrite !ndiv_fin by lra.
  replace ((4 + 3 * 1) * -1 / ((3 + 4 * 1) * 1 * 1)) with (-1) by field. replace (-1 / 1) with (-1) by field.
  unfold nacos. rewrite !Rleb_t by lra. cbn [andb].
  rewrite !npowi_fin, !nmul_fin, !nsub_fin.
  replace (1 ^ 2 - (-1) ^ 2) with 0 by ring. replace (1 ^ 2 * 1 ^ 2 * ((3 + 4 * 1) / (4 + 3 * 1)) ^ 2 - (-1) ^ 2) with 0 by field.
  rewrite !nsqrt_fin by lra. rewrite sqrt_0. rewrite !nsub_fin, !nadd_fin, !nmul_fin, !nadd_fin, !nmul_fin.
  eexists. split; [reflexivity|].
  assert (E : acos (-1) = PI) by (unfold acos; destruct (Rle_dec (-1) (-1)); lra). rewrite E.
  pose proof PI_RGT_0. assert (2 < PI) by (pose proof PI2_1; lra).
  match goal with |- ?x < 0 => replace x with (2 * PI * (1 - PI)) by field end. nra.
Qed.
