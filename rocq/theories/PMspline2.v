(** The components of BasisSpline are probability densities. *)
From Verif Require Export PMspline PSplineEval.
From Coquelicot Require Import Coquelicot.
From Verif Require Import Spec SpecEval.
Open Scope R_scope.

Lemma knots_support us k i : (i + k < length us)%nat -> knots_of (fun m => nth m us 0) k i = support_knots us k i.
Proof.
  intros H. unfold knots_of, support_knots. replace (k + 1)%nat with (S k) by lia. set (n := S k). assert (L : (i + n <= length us)%nat) by (unfold n; lia). clearbody n. clear H k. revert i L.
  induction n as [|n IH]; intros i L; [reflexivity|]. cbn [seq map]. rewrite (IH (S i)) by lia.
  assert (E : skipn i us = nth i us 0 :: skipn (S i) us).
  { clear IH. revert i L. induction us as [|u us IHu]; intros i L; [cbn in L; lia|]. destruct i as [|i]; [reflexivity|]. cbn [skipn nth]. cbn [length] in L. rewrite IHu by lia. destruct us; reflexivity. }
  rewrite E. reflexivity.
Qed.

Lemma hom_1 l : hom l 1 = Rlsum l.
Proof. induction l as [|x l IH]; [reflexivity|]. rewrite hom_first, hom_0, IH. cbn. ring. Qed.
Lemma cf_0 k : cf k 0 = 1.
Proof. induction k as [|j IH]; [reflexivity|]. cbn [cf]. rewrite IH, Nat.add_0_r. field. apply Rgt_not_eq, INR_S_pos. Qed.

Lemma mspline_integrals us k i lo hi : spaced_knots us -> (1 <= k)%nat -> (i + k < length us)%nat -> nth i us 0 < nth (i + k) us 0 -> lo <= nth i us 0 -> nth (i + k) us 0 <= hi ->
  is_RInt (Mspline us k i) lo hi 1 /\ is_RInt (fun x => x * Mspline us k i x) lo hi (average (support_knots us k i)).
Proof.
  intros HT Hk Hi HW HL HH. set (t := fun m => nth m us 0). assert (HM : forall j, (i <= j < i + k)%nat -> t j <= t (S j)) by (intros; apply (t_mono us HT); lia).
  pose proof (moments t k Hk i 0 lo hi HM HL HH HW) as A. pose proof (moments t k Hk i 1 lo hi HM HL HH HW) as B. split.
  - eapply is_RInt_eq; [eapply is_RInt_ext; [|exact A]|rewrite cf_0, hom_0; eqR; ring]. intros x _. eqR. unfold Mspline, Mf. cbn [pow]. unfold t. ring.
  - eapply is_RInt_eq; [eapply is_RInt_ext; [|exact B]|].
    + intros x _. eqR. unfold Mspline, Mf. cbn [pow]. unfold t. ring.
    + rewrite hom_1, cf_S, cf_0. unfold t. rewrite knots_support by auto. unfold average.
      assert (E : length (support_knots us k i) = S (k + 0)) by (unfold support_knots; rewrite firstn_length, skipn_length; lia). rewrite E. change (INR 1) with 1. eqR. unfold Rdiv. ring.
Qed.

Lemma design_row s n k knots interior a b nrm sp us i : logy s = false -> logx s = false -> a < b -> (1 <= k)%nat -> make_spline s n k knots interior (Fin a) (Fin b) nrm = Ok sp -> sp_knots sp = map Fin us -> spaced_knots us -> (i < n)%nat ->
  length us = (n + k)%nat /\
  forall xs j, (j < length xs)%nat -> nth j (nth i (bases sp (map Fin xs)) []) NaN = Fin (within a b (nth j xs 0) (match s with KBasis => Mspline us k i (nth j xs 0) | _ => Bspline (fun m => nth m us 0) k i (nth j xs 0) end)).
Proof.
  intros HY HX HAB Hk HM HU HT Hi. assert (HR : valid_range s a b) by (split; [auto|rewrite HX; discriminate]).
  destruct (made _ _ _ _ _ _ _ _ _ HM HR) as (K1 & K2 & K3 & K4 & K5 & K6 & K7). assert (LU : length us = (n + k)%nat) by (rewrite <- K6, HU, map_length; auto). split; auto.
  intros xs j Hj. unfold bases, design. rewrite K1, K2, K3, K4, K5, HU.
  rewrite (nth_indep _ [] (map (basis_value s (map Fin us) k (Fin (coord s a)) (Fin (coord s b)) 0) (map Fin xs))) by (rewrite map_length, seq_length; auto).
  rewrite (map_nth (fun i => map (basis_value s (map Fin us) k (Fin (coord s a)) (Fin (coord s b)) i) (map Fin xs))). rewrite seq_nth by auto. cbn [Nat.add].
  rewrite map_map. rewrite (nth_indep _ NaN (basis_value s (map Fin us) k (Fin (coord s a)) (Fin (coord s b)) i (Fin 0))) by (rewrite map_length; auto).
  rewrite (map_nth (fun x => basis_value s (map Fin us) k (Fin (coord s a)) (Fin (coord s b)) i (Fin x))).
  assert (PX : logx s = true -> 0 < nth j xs 0) by (rewrite HX; discriminate).
  pose proof (column_value s us k n a b (nth j xs 0) HY HT Hk LU HR PX) as CV. unfold column in CV. rewrite map_map in CV. 
  apply (f_equal (fun l => nth i l NaN)) in CV. rewrite !(nth_indep _ NaN (basis_value s (map Fin us) k (Fin (coord s a)) (Fin (coord s b)) 0 (Fin (nth j xs 0)))) in CV by (rewrite map_length, seq_length; auto).
  rewrite (map_nth (fun i => basis_value s (map Fin us) k (Fin (coord s a)) (Fin (coord s b)) i (Fin (nth j xs 0)))) in CV. rewrite seq_nth in CV by auto. cbn [Nat.add] in CV. rewrite CV.
  set (g := fun i => Fin (within a b (nth j xs 0) match s with KBasis => Mspline us k i (nth j xs 0) | _ => Bspline (fun m => nth m us 0) k i (coord s (nth j xs 0)) end)).
  rewrite (nth_indep _ _ (g O)) by (rewrite map_length, seq_length; auto). rewrite (map_nth g). rewrite seq_nth by auto. unfold g, coord. rewrite HX. cbn [Nat.add]. reflexivity.
Qed.

Lemma within_RInt a b (f : R -> R) v : a < b -> is_RInt f a b v -> is_RInt (fun x => within a b x (f x)) a b v.
Proof.
  intros HAB H. eapply is_RInt_ext; [|exact H]. intros x. rewrite Rmin_left, Rmax_right by lra. intros [H1 H2]. unfold within. rewrite !Rleb_t by lra. reflexivity.
Qed.
Lemma within_mul a b (f : R -> R) v : a < b -> is_RInt (fun x => x * f x) a b v -> is_RInt (fun x => x * within a b x (f x)) a b v.
Proof.
  intros HAB H. eapply is_RInt_ext; [|exact H]. intros x. rewrite Rmin_left, Rmax_right by lra. intros [H1 H2]. unfold within. rewrite !Rleb_t by lra. reflexivity.
Qed.

Lemma components_densities n k knots interior a b nrm sp us i : a < b -> (1 <= k)%nat -> make_spline KBasis n k knots interior (Fin a) (Fin b) nrm = Ok sp -> sp_knots sp = map Fin us -> spaced_knots us -> (i < n)%nat ->
  a <= nth i us 0 -> nth i us 0 < nth (i + k) us 0 -> nth (i + k) us 0 <= b ->
  exists f, (forall xs j, (j < length xs)%nat -> nth j (nth i (bases sp (map Fin xs)) []) NaN = Fin (f (nth j xs 0))) /\
    (forall x, 0 <= f x) /\ is_RInt f a b 1 /\ is_RInt (fun x => x * f x) a b (average (support_knots us k i)).
Proof.
  intros HAB Hk HM HU HT Hi HA HW HB. destruct (design_row KBasis n k knots interior a b nrm sp us i eq_refl eq_refl HAB Hk HM HU HT Hi) as [LU DR].
  exists (fun x => within a b x (Mspline us k i x)). split; [exact DR|].
  destruct (mspline_integrals us k i a b HT Hk ltac:(lia) HW HA HB) as [I1 I2]. split; [|split; [apply within_RInt; auto|apply within_mul; auto]].
  intros x. unfold within. destruct (_ && _)%bool; [|lra]. unfold Mspline. rewrite ratio_val by lra. apply Rmult_le_pos.
  - apply Rmult_le_pos; [apply pos_INR|]. left. apply Rinv_0_lt_compat. lra.
  - apply Bspline_nonneg. intros j Hj. apply (t_mono us HT). lia.
Qed.

Lemma bspline_area n k knots interior a b nrm sp us i : a < b -> (1 <= k)%nat -> make_spline KB n k knots interior (Fin a) (Fin b) nrm = Ok sp -> sp_knots sp = map Fin us -> spaced_knots us -> (i < n)%nat ->
  a <= nth i us 0 -> nth (i + k) us 0 <= b ->
  exists f, (forall xs j, (j < length xs)%nat -> nth j (nth i (bases sp (map Fin xs)) []) NaN = Fin (f (nth j xs 0))) /\
    is_RInt f a b ((nth (i + k) us 0 - nth i us 0) / INR k).
Proof.
  intros HAB Hk HM HU HT Hi HA HB. destruct (design_row KB n k knots interior a b nrm sp us i eq_refl eq_refl HAB Hk HM HU HT Hi) as [LU DR].
  exists (fun x => within a b x (Bspline (fun m => nth m us 0) k i x)). split; [exact DR|]. apply within_RInt; auto.
  assert (PK : 0 < INR k) by (apply lt_0_INR; lia). destruct (span us HT k i ltac:(lia)) as [E|E].
  - eapply is_RInt_eq; [eapply is_RInt_ext; [|apply (@is_RInt_const R_NormedModule a b 0)]|].
    + intros x _. eqR. symmetry. apply Bspline_support; [intros j Hj; apply (t_mono us HT); lia|]. destruct (Rlt_dec x (nth i us 0)); [left; auto|right; rewrite E; lra].
    + rewrite E. unfold scal. cbn. unfold mult. cbn. unfold Rdiv. ring.
  - destruct (mspline_integrals us k i a b HT Hk ltac:(lia) ltac:(lra) HA HB) as [I1 _].
    eapply is_RInt_eq; [eapply is_RInt_ext; [|apply (@is_RInt_scal R_NormedModule _ _ _ ((nth (i + k) us 0 - nth i us 0) / INR k) _ I1)]|].
    + intros x _. eqR. unfold scal. cbn. unfold mult. cbn. unfold Mspline. rewrite ratio_val by lra. field. split; lra.
    + unfold scal. cbn. unfold mult. cbn. ring.
Qed.
