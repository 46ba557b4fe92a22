(** Proofs about the aligned-spin chi_eff prior of [MPriors]. *)
From Verif Require Export NumFacts ArrFacts Interp MPriors Spec Calc.
Open Scope R_scope.

Lemma Rdiv_cross a b c : 0 < b -> a <= c * b -> a / b <= c.
Proof. intros. apply Rmult_le_reg_r with b; auto. unfold Rdiv. rewrite Rmult_assoc, Rinv_l; lra. Qed.
Lemma Rdiv_cross_ge a b c : 0 < b -> c * b <= a -> c <= a / b.
Proof. intros. apply Rmult_le_reg_r with b; auto. unfold Rdiv. rewrite Rmult_assoc, Rinv_l; lra. Qed.
Lemma Rdiv_cross_lt a b c : 0 < b -> a < c * b -> a / b < c.
Proof. intros. apply Rmult_lt_reg_r with b; auto. unfold Rdiv. rewrite Rmult_assoc, Rinv_l; lra. Qed.
Lemma Rdiv_cross_gt a b c : 0 < b -> c * b < a -> c < a / b.
Proof. intros. apply Rmult_lt_reg_r with b; auto. unfold Rdiv. rewrite Rmult_assoc, Rinv_l; lra. Qed.

Definition al (q a x : R) : R := (1 + q) / (2 * a) * Rmax 0 (Rmin 1 ((1 + q) * (a - Rabs x) / (2 * q * a))).

Section Aligned.
Variables q a : R.
Hypothesis Hq : 0 < q <= 1.
Hypothesis Ha : 0 < a.
Let b := a * (1 - q) / (1 + q).

Lemma al_b : 0 <= b < a /\ b * (1 + q) = a * (1 - q).
Proof.
  assert (b * (1 + q) = a * (1 - q)) by (unfold b; field; lra).
  split; [split|auto].
  - unfold b. apply Rdiv_le_0_compat; nra.
  - unfold b. apply Rdiv_cross_lt; nra.
Qed.
Lemma qa_pos : 0 < 2 * q * a. Proof. nra. Qed.

Lemma al_outer x : b <= Rabs x <= a -> al q a x = (1 + q) ^ 2 * (a - Rabs x) / (4 * q * a ^ 2).
Proof.
  intros Hx. pose proof al_b as [Hb Eb]. pose proof qa_pos as P.
  unfold al. rewrite Rmin_right.
  - rewrite Rmax_right; [field; lra|]. apply Rdiv_le_0_compat; [|auto]. apply Rmult_le_pos; lra.
  - apply Rdiv_cross; auto. nra.
Qed.
Lemma al_inner x : Rabs x <= b -> al q a x = (1 + q) / (2 * a).
Proof.
  intros Hx. pose proof al_b as [Hb Eb]. pose proof qa_pos as P.
  unfold al. rewrite Rmin_left; [rewrite Rmax_right by lra; ring|].
  apply Rdiv_cross_ge; auto. nra.
Qed.
Lemma al_out x : a <= Rabs x -> al q a x = 0.
Proof.
  intros Hx. pose proof qa_pos as P. unfold al. rewrite Rmax_left; [ring|].
  apply Rle_trans with ((1 + q) * (a - Rabs x) / (2 * q * a)); [apply Rmin_r|].
  apply Rdiv_cross; auto. nra.
Qed.

Lemma aligned_fin x : chi_effective_prior_from_aligned_spins (Fin x) (Fin q) (Fin a) = Fin (al q a x).
Proof.
  pose proof al_b as [Hb Eb].
  unfold chi_effective_prior_from_aligned_spins.
  rewrite !nsub_fin, !nadd_fin, !nneg_fin, !nmul_fin, !npowi_fin, !nmul_fin.
  assert (0 < 4 * q * a ^ 2) by (apply Rmult_lt_0_compat; nra).
  rewrite !ndiv_fin by lra. cbn [ngt nge nlt nle].
  fold b. replace (- a * (1 - q) / (1 + q)) with (- b) by (unfold b; field; lra).
  unfold ngt, nge. cbn [nlt nle].
  repeat (rcase; cbn [andb]); try reflexivity; try (exfalso; lra).
  all: apply (f_equal Fin); symmetry;
    first [ rewrite al_inner by (unfold Rabs; destruct (Rcase_abs x); lra); reflexivity
          | rewrite al_out by (unfold Rabs; destruct (Rcase_abs x); lra); reflexivity
          | rewrite al_outer by (unfold Rabs; destruct (Rcase_abs x); lra);
            unfold Rabs; destruct (Rcase_abs x); try (exfalso; lra); field; lra ].
Qed.

Lemma al_nonneg x : 0 <= al q a x.
Proof. unfold al. apply Rmult_le_pos; [apply Rdiv_le_0_compat; lra|apply Rmax_l]. Qed.
Lemma al_even x : al q a (- x) = al q a x.
Proof. unfold al. rewrite Rabs_Ropp. reflexivity. Qed.
Lemma al_cont x : continuous (al q a) x.
Proof.
  unfold al. apply cont_scal.
  apply (continuous_ext (fun t => Rmax (Rmin ((1 + q) * (a - Rabs t) / (2 * q * a)) 1) 0)).
  { intros t. rewrite Rmax_comm, Rmin_comm. reflexivity. }
  apply (cont_comp (fun t => Rmin ((1 + q) * (a - Rabs t) / (2 * q * a)) 1) (fun u => Rmax u 0)); [|apply continuous_Rmax].
  apply (cont_comp (fun t => (1 + q) * (a - Rabs t) / (2 * q * a)) (fun u => Rmin u 1)); [|apply continuous_Rmin].
  apply cont_mult; [|apply cont_const]. apply cont_scal.
  apply cont_minus; [apply cont_const|apply continuous_Rabs].
Qed.
Lemma al_int : is_RInt (al q a) (- a) a 1.
Proof.
  pose proof al_b as [Hb Eb].
  assert (H1 : is_RInt (al q a) (- a) (- b) (q / 2)).
  { apply (is_RInt_ext_open (fun x => (1 + q) ^ 2 * (a + x) / (4 * q * a ^ 2))); [lra| |].
    - intros x Hx. rewrite al_outer; unfold Rabs; destruct (Rcase_abs x); try lra.
    - apply (FTC_eq (fun x => (1 + q) ^ 2 * ((a + x) ^ 2 / 2) / (4 * q * a ^ 2))); [lra| | |].
      + intros x _. auto_derive; auto. field. lra.
      + intros x _. apply ex_derive_cont. auto_derive. auto.
      + unfold b. field. lra. }
  assert (H2 : is_RInt (al q a) (- b) b (1 - q)).
  { apply (is_RInt_ext_open (fun x => (1 + q) / (2 * a))); [lra| |].
    - intros x Hx. rewrite al_inner; auto. unfold Rabs; destruct (Rcase_abs x); lra.
    - apply (is_RInt_val _ _ _ ((b - - b) * ((1 + q) / (2 * a)))); [apply is_RInt_constR|].
      unfold b. field. lra. }
  assert (H3 : is_RInt (al q a) b a (q / 2)).
  { apply (is_RInt_ext_open (fun x => (1 + q) ^ 2 * (a - x) / (4 * q * a ^ 2))); [lra| |].
    - intros x Hx. rewrite al_outer; unfold Rabs; destruct (Rcase_abs x); lra.
    - apply (FTC_eq (fun x => - ((1 + q) ^ 2 * ((a - x) ^ 2 / 2) / (4 * q * a ^ 2)))); [lra| | |].
      + intros x _. auto_derive; auto. field. lra.
      + intros x _. apply ex_derive_cont. auto_derive. auto.
      + unfold b. field. lra. }
  apply (is_RInt_val _ _ _ ((q / 2 + (1 - q)) + q / 2)); [|field].
  apply (is_RInt_ChaslesR _ _ b); auto. apply (is_RInt_ChaslesR _ _ (- b)); auto.
Qed.

(** it is the density of (s1 + q s2)/(1+q) for independent s1, s2 uniform on [-a,a] *)
Lemma indicator_int l h c d (f : R -> R) k : l <= h -> c <= d ->
  (forall s, l < s < h -> c < s < d -> f s = k) -> (forall s, l < s < h -> s < c \/ d < s -> f s = 0) ->
  is_RInt f l h (k * Rmax 0 (Rmin h d - Rmax l c)).
Proof.
  intros Hlh Hcd Hin Hout.
  destruct (Rle_lt_dec h c) as [H1|H1].
  { rewrite Rmax_left by (unfold Rmin, Rmax; destruct (Rle_dec h d), (Rle_dec l c); lra).
    apply (is_RInt_ext_open (fun _ => 0)); auto.
    - intros s Hs. symmetry. apply Hout; auto. lra.
    - apply (is_RInt_val _ _ _ ((h - l) * 0)); [apply is_RInt_constR|ring]. }
  destruct (Rle_lt_dec d l) as [H2|H2].
  { rewrite Rmax_left by (unfold Rmin, Rmax; destruct (Rle_dec h d), (Rle_dec l c); lra).
    apply (is_RInt_ext_open (fun _ => 0)); auto.
    - intros s Hs. symmetry. apply Hout; auto. lra.
    - apply (is_RInt_val _ _ _ ((h - l) * 0)); [apply is_RInt_constR|ring]. }
  set (c' := Rmax l c). set (d' := Rmin h d).
  assert (Hc' : l <= c' /\ c <= c' /\ (c' = l \/ c' = c)) by (unfold c', Rmax; destruct (Rle_dec l c); lra).
  assert (Hd' : d' <= h /\ d' <= d /\ (d' = h \/ d' = d)) by (unfold d', Rmin; destruct (Rle_dec h d); lra).
  assert (Hcd' : c' <= d') by (destruct Hc' as (_ & _ & [->| ->]), Hd' as (_ & _ & [->| ->]); lra).
  rewrite Rmax_right by lra.
  apply (is_RInt_val _ _ _ ((c' - l) * 0 + (d' - c') * k + (h - d') * 0)); [|ring].
  apply (is_RInt_ChaslesR _ _ d').
  - apply (is_RInt_ChaslesR _ _ c').
    + apply (is_RInt_ext_open (fun _ => 0)); [lra| |apply is_RInt_constR].
      intros s Hs. symmetry. apply Hout; [lra|]. lra.
    + apply (is_RInt_ext_open (fun _ => k)); [lra| |apply is_RInt_constR].
      intros s Hs. symmetry. apply Hin; lra.
  - apply (is_RInt_ext_open (fun _ => 0)); [lra| |apply is_RInt_constR].
    intros s Hs. symmetry. apply Hout; [lra|]. lra.
Qed.

Lemma al_convolution x :
  is_RInt (fun s => uniform_density (- a) a s * uniform_density (- a) a (((1 + q) * x - s) / q) * ((1 + q) / q))
    (- a) a (al q a x).
Proof.
  pose proof al_b as [Hb Eb]. set (X := (1 + q) * x). set (u := q * a).
  assert (Hu : 0 < u <= a) by (unfold u; nra).
  assert (K : forall s, ((X - s) / q <= a <-> X - u <= s) /\ (- a <= (X - s) / q <-> s <= X + u)).
  { intros s. assert (E : (X - s) / q * q = X - s) by (field; lra). set (t := (X - s) / q) in *. clearbody t X. unfold u. split; split; intros; nra. }
  apply (is_RInt_val _ _ _ ((1 + q) / q / (4 * a ^ 2) * Rmax 0 (Rmin a (X + u) - Rmax (- a) (X - u)))).
  - apply indicator_int; try lra.
    + intros s Hs Hin. unfold uniform_density. destruct (K s) as [K1 K2].
      rewrite (Rleb_t (- a) s), (Rleb_t s a) by lra. cbn [andb].
      rewrite (Rleb_t (- a) ((X - s) / q)) by (apply K2; lra). rewrite (Rleb_t ((X - s) / q) a) by (apply K1; lra).
      cbn [andb]. field. lra.
    + intros s Hs Hout. unfold uniform_density. destruct (K s) as [K1 K2].
      destruct Hout as [Ho|Ho].
      * rewrite (Rleb_f ((X - s) / q) a) by (apply Rnot_le_lt; intros C; apply K1 in C; lra).
        rewrite Bool.andb_false_r. ring.
      * rewrite (Rleb_f (- a) ((X - s) / q)) by (apply Rnot_le_lt; intros C; apply K2 in C; lra).
        cbn [andb]. ring.
  - assert (Ax : Rabs X = (1 + q) * Rabs x) by (unfold X; rewrite Rabs_mult, (Rabs_right (1 + q)); lra).
    (* overlap length *)
    assert (E : Rmax 0 (Rmin a (X + u) - Rmax (- a) (X - u)) = Rmax 0 (Rmin (2 * u) (a + u - Rabs X))).
    { f_equal. unfold Rabs. destruct (Rcase_abs X).
      - rewrite (Rmin_right a) by lra. unfold Rmax, Rmin.
        destruct (Rle_dec (- a) (X - u)), (Rle_dec (2 * u) (a + u - - X)); lra.
      - rewrite (Rmax_right (- a)) by lra. unfold Rmin.
        destruct (Rle_dec a (X + u)), (Rle_dec (2 * u) (a + u - X)); lra. }
    rewrite E. unfold al. pose proof qa_pos as P.
    replace (2 * u) with (2 * u * 1) by ring.
    replace (a + u - Rabs X) with (2 * u * ((1 + q) * (a - Rabs x) / (2 * q * a))).
    2:{ rewrite Ax. unfold u. field. lra. }
    rewrite <- Rmult_min_distr_l by lra. replace 0 with (2 * u * 0) at 1 by ring.
    rewrite <- Rmult_max_distr_l by lra. unfold u. field. lra.
Qed.
End Aligned.

Lemma aligned_density q a : 0 < q <= 1 -> 0 < a ->
  exists f : R -> R,
    (forall x, chi_effective_prior_from_aligned_spins (Fin x) (Fin q) (Fin a) = Fin (f x)) /\
    (forall x, 0 <= f x) /\ (forall x, f (- x) = f x) /\ (forall x, a < Rabs x -> f x = 0) /\
    (forall x, continuous f x) /\ is_RInt f (- a) a 1.
Proof.
  intros Hq Ha. exists (al q a). repeat split.
  - intros. apply aligned_fin; auto.
  - intros. apply al_nonneg; auto.
  - intros. apply al_even.
  - intros. apply al_out; auto. lra.
  - intros. apply al_cont.
  - apply al_int; auto.
Qed.
Lemma aligned_convolution q a : 0 < q <= 1 -> 0 < a -> forall x,
  exists v, chi_effective_prior_from_aligned_spins (Fin x) (Fin q) (Fin a) = Fin v /\
  is_RInt (fun s => uniform_density (- a) a s * uniform_density (- a) a (((1 + q) * x - s) / q) * ((1 + q) / q)) (- a) a v.
Proof.
  intros Hq Ha x. exists (al q a x). split; [apply aligned_fin; auto|apply al_convolution; auto].
Qed.
