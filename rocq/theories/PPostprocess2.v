(** The posterior predictive curves of each family, and the rate evolution curves. *)
From Verif Require Export PPostprocess.
From Verif Require Import ArrFacts NumFacts PDistributions PParametric PBSplineGauge PBSplines PSplinePert PSplinePert2 PNumpyroDist PConstruct Calc.
From Verif Require Import Spec.
Open Scope R_scope.

Lemma two_eight : (2 <= 800)%nat. Proof. apply (Nat.leb_le 2 800). reflexivity. Qed.
Lemma lin_len a b : (2 <= length (rlinspace a b 800))%nat. Proof. rewrite rlinspace_length. apply two_eight. Qed.
Lemma lin_pos a b (g : R -> R) : a < b -> (forall x, a <= x <= b -> 0 < g x) -> 0 < trapezoid (rlinspace a b 800) (map g (rlinspace a b 800)).
Proof. intros H HG. apply grid_pos; [apply two_eight|auto| |exists b; split; [apply in_last, two_eight|]]. { intros z HZ. left. auto. } apply HG. lra. Qed.

(** ** Tilts *)
Lemma tilt_f_pos xi sig ct : 0 < sig -> 0 <= xi <= 1 -> 0 < tilt_f xi sig ct.
Proof.
  intros Hs Hx. unfold tilt_f. pose proof (tn_f_pos 1 sig (-1) 1 ct Hs ltac:(lra)). destruct (Rlt_le_dec 0 xi).
  - apply Rplus_le_lt_0_compat; [lra|]. apply Rmult_lt_0_compat; auto.
  - assert (xi = 0) by lra. subst. lra.
Qed.
Lemma nth_some {A} (l : list A) i x d : nth_error l i = Some x -> nth i l d = x.
Proof. revert i. induction l; intros [|i] H; cbn in *; try discriminate; [congruence|auto]. Qed.
Lemma tilt_curves ds rate frac : one_per_draw (length ds) rate -> one_per_draw (length ds) frac -> (forall sig lam, In (sig, lam) ds -> 0 < sig /\ 0 <= lam <= 1) ->
  let ct := rlinspace (-1) 1 800 in
  exists cs, calculate_mixture_iso_aligned_spin_tilt (map (fun d => (Fin (fst d), Fin (snd d))) ds) (given rate) (given frac) = Ok (cs, map Fin ct) /\ length cs = length ds /\
    forall i sig lam, nth_error ds i = Some (sig, lam) -> exists g, (forall x, -1 <= x <= 1 -> mixture_isoalign_spin_tilt (Fin x) (Fin lam) (Fin sig) = Fin (g x)) /\
      rate_curve ct g (total_rate rate frac i) (nth i cs []).
Proof.
  intros HR HF HD ct. unfold calculate_mixture_iso_aligned_spin_tilt. cbv zeta. unfold PPD_POINTS. rewrite (nlinspace_fin (-1) 1 800) by apply two_eight. fold ct.
  set (h := fun d : R * R => _). set (f := fun d r q => _).
  destruct (all_ok h f (fun d t o => rate_curve ct (tilt_f (snd d) (fst d)) t o) ds rate frac HR HF) as (os & E & L & K).
  - intros [sig lam] r q Hd. destruct (HD _ _ Hd) as [Hs Hl]. eexists. split; [reflexivity|]. unfold h. cbn [fst snd].
    replace (map _ (map Fin ct)) with (map (fun x => Fin (tilt_f lam sig x)) ct).
    + apply spin_curve_ok. apply lin_pos; [lra|]. intros; apply tilt_f_pos; auto.
    + rewrite map_map. apply map_ext_in. intros x Hx. symmetry. apply tilt_in; auto. eapply rlinspace_range; [|exact Hx]. lra.
  - rewrite E. cbn [rbind]. exists os. split; auto. split; auto. intros i sig lam Hi. destruct (K i _ Hi) as (o & Eo & Po). rewrite (nth_some _ _ _ _ Eo).
    exists (tilt_f lam sig). split; [|exact Po]. intros x Hx. apply tilt_in; auto. apply nth_error_In in Hi. apply (HD _ _ Hi).
Qed.

(** ** Beta spin magnitudes *)
Definition beta_f (lnB a b s x : R) : R := if Rltb 0 x && Rltb x s then Rpower x (a - 1) * Rpower (s - x) (b - 1) / (Rpower s (a + b - 1) * exp lnB) else 0.
Lemma beta_f_in betaln lnB a b s x : betaln (Fin a) (Fin b) = Fin lnB -> 1 < a -> 1 < b -> 0 < s -> 0 <= x <= s -> betadist betaln (Fin x) (Fin a) (Fin b) (Fin s) (Fin 0) = Fin (beta_f lnB a b s x).
Proof.
  intros HB Ha Hb Hs Hx. unfold beta_f. destruct (Rlt_le_dec 0 x) as [L|L].
  - rewrite (Rltb_t 0 x) by auto. destruct (Rlt_le_dec x s) as [M|M].
    + rewrite (Rltb_t x s) by auto. cbn [andb]. apply betadist_in; auto.
    + rewrite (Rltb_f x s) by auto. cbn [andb]. replace x with s by lra. eapply betadist_right; eauto.
  - rewrite (Rltb_f 0 x) by auto. cbn [andb]. replace x with 0 by lra. eapply betadist_left; eauto.
Qed.
Lemma beta_f_pos lnB a b s x : 0 < x < s -> 0 < beta_f lnB a b s x.
Proof.
  intros Hx. unfold beta_f. rewrite !Rltb_t by lra. cbn [andb]. apply Rdiv_lt_0_compat; apply Rmult_lt_0_compat; try apply Rpower_pos. apply exp_pos.
Qed.
Lemma lin_inner a b : a < b -> exists x, In x (rlinspace a b 800) /\ a < x < b.
Proof.
  intros H. assert (L : (1 < 800)%nat) by (apply (Nat.ltb_lt 1 800); reflexivity). exists (nth 1 (rlinspace a b 800) 0). split; [apply nth_In; rewrite rlinspace_length; exact L|].
  rewrite rlinspace_nth by exact L. assert (1 < INR (800 - 1)) by (change 1 with (INR 1); apply lt_INR; apply (Nat.ltb_lt 1 (800 - 1)); reflexivity). cbn [INR].
  assert (0 < (b - a) / INR (800 - 1)) by (apply Rdiv_lt_0_compat; lra).
  assert ((b - a) / INR (800 - 1) < b - a) by (apply Rmult_lt_reg_r with (INR (800 - 1)); [lra|]; unfold Rdiv; rewrite Rmult_assoc, Rinv_l by lra; nra). lra.
Qed.
