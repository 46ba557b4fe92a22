(** Calculus helpers on top of Coquelicot. *)
From Coquelicot Require Export Coquelicot.
From Verif Require Export NumFacts Spec.

Lemma ex_derive_cont (f : R -> R) (x : R) : ex_derive f x -> continuous f x.
Proof. exact (ex_derive_continuous f x). Qed.

Lemma cont_const (k x : R) : continuous (fun _ : R => k) x.
Proof. exact (continuous_const k x). Qed.
Lemma cont_id (x : R) : continuous (fun t : R => t) x.
Proof. exact (continuous_id x). Qed.
Lemma cont_plus (f g : R -> R) (x : R) : continuous f x -> continuous g x -> continuous (fun t => f t + g t) x.
Proof. exact (continuous_plus f g x). Qed.
Lemma cont_minus (f g : R -> R) (x : R) : continuous f x -> continuous g x -> continuous (fun t => f t - g t) x.
Proof. exact (continuous_minus f g x). Qed.
Lemma cont_mult (f g : R -> R) (x : R) : continuous f x -> continuous g x -> continuous (fun t => f t * g t) x.
Proof. exact (continuous_mult f g x). Qed.
Lemma cont_scal (f : R -> R) (k x : R) : continuous f x -> continuous (fun t => k * f t) x.
Proof. intros H. apply cont_mult; [apply cont_const | auto]. Qed.
Lemma cont_comp (f g : R -> R) (x : R) : continuous f x -> continuous g (f x) -> continuous (fun t => g (f t)) x.
Proof. exact (continuous_comp f g x). Qed.

Lemma ex_RInt_cont (f : R -> R) (a b : R) : (forall x, continuous f x) -> ex_RInt f a b.
Proof. intros H. apply (ex_RInt_continuous (V := R_CompleteNormedModule) f a b). intros; apply H. Qed.
Lemma is_derive_RInt_cont (f : R -> R) (a x : R) : (forall t, continuous f t) ->
  is_derive (fun y => RInt f a y) x (f x).
Proof.
  intros H. apply (is_derive_RInt (V := R_CompleteNormedModule) f (fun y => RInt f a y) a x); auto.
  apply filter_forall. intros y. apply (RInt_correct (V := R_CompleteNormedModule)), ex_RInt_cont; auto.
Qed.

Lemma FTC (F f : R -> R) (a b : R) : a <= b ->
  (forall x, a <= x <= b -> is_derive F x (f x)) ->
  (forall x, a <= x <= b -> continuous f x) ->
  is_RInt f a b (F b - F a).
Proof.
  intros Hab HF Hf.
  apply (is_RInt_derive F f a b); intros x Hx; rewrite Rmin_left, Rmax_right in Hx by lra; auto.
Qed.

Lemma FTC_eq (F f : R -> R) (a b v : R) : a <= b ->
  (forall x, a <= x <= b -> is_derive F x (f x)) ->
  (forall x, a <= x <= b -> continuous f x) ->
  F b - F a = v -> is_RInt f a b v.
Proof. intros ? ? ? <-. now apply FTC. Qed.

(** integrals of functions equal on the open interval *)
Lemma is_RInt_ext_open (f g : R -> R) (a b l : R) : a <= b ->
  (forall x, a < x < b -> f x = g x) -> is_RInt f a b l -> is_RInt g a b l.
Proof.
  intros Hab H. apply is_RInt_ext. intros x Hx. rewrite Rmin_left, Rmax_right in Hx by lra. auto.
Qed.

Lemma is_RInt_scalR (f : R -> R) (a b k l : R) :
  is_RInt f a b l -> is_RInt (fun x => k * f x) a b (k * l).
Proof. intros H. exact (is_RInt_scal f a b k l H). Qed.
Lemma is_RInt_plusR (f g : R -> R) (a b l m : R) :
  is_RInt f a b l -> is_RInt g a b m -> is_RInt (fun x => f x + g x) a b (l + m).
Proof. intros H K. exact (is_RInt_plus f g a b l m H K). Qed.
Lemma is_RInt_minusR (f g : R -> R) (a b l m : R) :
  is_RInt f a b l -> is_RInt g a b m -> is_RInt (fun x => f x - g x) a b (l - m).
Proof. intros H K. exact (is_RInt_minus f g a b l m H K). Qed.
Lemma is_RInt_ChaslesR (f : R -> R) (a b c l m : R) :
  is_RInt f a b l -> is_RInt f b c m -> is_RInt f a c (l + m).
Proof. intros H K. exact (is_RInt_Chasles f a b c l m H K). Qed.
Lemma is_RInt_constR (a b k : R) : is_RInt (fun _ => k) a b ((b - a) * k).
Proof. exact (is_RInt_const a b k). Qed.
Lemma is_RInt_val (f : R -> R) (a b l m : R) : is_RInt f a b l -> l = m -> is_RInt f a b m.
Proof. now intros ? <-. Qed.

(** a function with positive derivative on an interval is increasing there *)
Lemma derive_pos_incr (F f : R -> R) (a b : R) : a < b ->
  (forall x, a <= x <= b -> is_derive F x (f x)) ->
  (forall x, a <= x <= b -> 0 < f x) -> F a < F b.
Proof.
  intros Hab HF Hf.
  destruct (MVT_gen F a b f) as (c & Hc & He).
  - intros x Hx. apply HF. rewrite Rmin_left, Rmax_right in Hx by lra; lra.
  - intros x Hx. rewrite Rmin_left, Rmax_right in Hx by lra.
    apply derivable_continuous_pt. exists (f x). apply is_derive_Reals. apply HF; lra.
  - rewrite Rmin_left, Rmax_right in Hc by lra.
    assert (0 < f c) by (apply Hf; lra). nra.
Qed.

Lemma Rpower_1_l y : Rpower 1 y = 1.
Proof. unfold Rpower. rewrite ln_1, Rmult_0_r. apply exp_0. Qed.
Lemma Rpower_pos x y : 0 < Rpower x y.
Proof. apply exp_pos. Qed.

Lemma is_derive_Rpower (a x : R) : 0 < x ->
  is_derive (fun t => Rpower t a) x (a * Rpower x (a - 1)).
Proof.
  intros Hx. apply is_derive_Reals. apply derivable_pt_lim_power; auto.
Qed.
Lemma continuous_Rpower (a x : R) : 0 < x -> continuous (fun t => Rpower t a) x.
Proof.
  intros Hx. apply ex_derive_cont. eexists. apply is_derive_Rpower; auto.
Qed.
Lemma is_derive_ln' (x : R) : 0 < x -> is_derive ln x (/ x).
Proof. intros Hx. apply is_derive_Reals. apply derivable_pt_lim_ln; auto. Qed.
Lemma is_derive_ext_val (f : R -> R) (x l m : R) : is_derive f x l -> l = m -> is_derive f x m.
Proof. now intros ? <-. Qed.
Lemma ln_lt_0_iff x : 0 < x -> x < 1 -> ln x < 0.
Proof. intros. rewrite <- ln_1. apply ln_increasing; lra. Qed.
Lemma ln_gt_0 x : 1 < x -> 0 < ln x.
Proof. intros. rewrite <- ln_1. apply ln_increasing; lra. Qed.
Lemma ln_le' x y : 0 < x -> x <= y -> ln x <= ln y.
Proof. intros Hx [H|<-]; [left; apply ln_increasing; auto | right; auto]. Qed.
Lemma ln_inj' x y : 0 < x -> 0 < y -> ln x = ln y -> x = y.
Proof. apply ln_inv. Qed.
Lemma exp_le x y : x <= y -> exp x <= exp y.
Proof. intros [H| ->]; [left; apply exp_increasing; auto | right; auto]. Qed.

Lemma Rpower_lt_l x y a : 0 < x -> x < y -> 0 < a -> Rpower x a < Rpower y a.
Proof.
  intros Hx Hxy Ha. unfold Rpower. apply exp_increasing.
  apply Rmult_lt_compat_l; auto. apply ln_increasing; auto.
Qed.
Lemma Rpower_lt_l_neg x y a : 0 < x -> x < y -> a < 0 -> Rpower y a < Rpower x a.
Proof.
  intros Hx Hxy Ha. unfold Rpower. apply exp_increasing.
  assert (ln x < ln y) by (apply ln_increasing; auto). nra.
Qed.

(** goals of Coquelicot's carrier type seen as equations between reals *)
Ltac req := cbn beta; match goal with |- ?x = ?y => change (@eq R x y) end.

(** clamp to an interval, and the fundamental theorem with derivative known only in the open interval *)
Definition clamp (a b x : R) : R := Rmax (Rmin x b) a.
Lemma clamp_in a b x : a <= b -> a <= clamp a b x <= b.
Proof. intros. unfold clamp, Rmax, Rmin. destruct (Rle_dec x b); destruct (Rle_dec _ a); lra. Qed.
Lemma clamp_id a b x : a <= x <= b -> clamp a b x = x.
Proof. intros. unfold clamp, Rmax, Rmin. destruct (Rle_dec x b); destruct (Rle_dec _ a); lra. Qed.
Lemma cont_Rmin c x : continuous (fun t => Rmin t c) x.
Proof.
  apply (continuous_ext (fun t => (t + c - Rabs (t - c)) / 2)).
  - intros t. unfold Rmin, Rabs. destruct (Rle_dec t c), (Rcase_abs (t - c)); lra.
  - apply cont_mult; [|apply cont_const]. apply cont_minus; [apply cont_plus; [apply cont_id|apply cont_const]|].
    apply (cont_comp (fun t => t - c) Rabs); [apply cont_minus; [apply cont_id|apply cont_const]|].
    apply continuous_Rabs.
Qed.
Lemma cont_Rmax c x : continuous (fun t => Rmax t c) x.
Proof.
  apply (continuous_ext (fun t => (t + c + Rabs (t - c)) / 2)).
  - intros t. unfold Rmax, Rabs. destruct (Rle_dec t c), (Rcase_abs (t - c)); lra.
  - apply cont_mult; [|apply cont_const]. apply cont_plus; [apply cont_plus; [apply cont_id|apply cont_const]|].
    apply (cont_comp (fun t => t - c) Rabs); [apply cont_minus; [apply cont_id|apply cont_const]|].
    apply continuous_Rabs.
Qed.
Lemma cont_clamp a b x : continuous (clamp a b) x.
Proof. unfold clamp. apply (cont_comp (fun t => Rmin t b) (fun u => Rmax u a)); [apply cont_Rmin|apply cont_Rmax]. Qed.

Lemma FTC_open (F f : R -> R) (a b : R) : a <= b ->
  (forall x, a <= x <= b -> continuous F x) ->
  (forall x, a < x < b -> is_derive F x (f x)) ->
  (forall x, a <= x <= b -> continuous f x) ->
  is_RInt f a b (F b - F a).
Proof.
  intros Hab HF HdF Hf.
  set (g := fun x => f (clamp a b x)).
  assert (Hg : forall x, continuous g x).
  { intros x. unfold g. apply (cont_comp (clamp a b) f); [apply cont_clamp|]. apply Hf, clamp_in; auto. }
  apply (is_RInt_ext_open g); auto.
  { intros x Hx. unfold g. rewrite clamp_id by lra. reflexivity. }
  assert (HI : is_RInt g a b (RInt g a b)) by (apply (RInt_correct (V := R_CompleteNormedModule)), ex_RInt_cont; auto).
  apply (is_RInt_val _ _ _ _ _ HI).
  destruct (MVT_gen (fun x => F x - RInt g a x) a b (fun _ => 0)) as (c & _ & Hc).
  - intros x Hx. rewrite Rmin_left, Rmax_right in Hx by lra.
    apply (is_derive_ext_val _ _ (f x - g x)); [|unfold g; rewrite clamp_id by lra; req; ring].
    apply (is_derive_minus (V := R_NormedModule) F (fun x => RInt g a x)); [apply HdF; auto|].
    apply is_derive_RInt_cont; auto.
  - intros x Hx. rewrite Rmin_left, Rmax_right in Hx by lra.
    apply continuity_pt_filterlim. apply (cont_minus F (fun x => RInt g a x)); [apply HF; auto|].
    apply ex_derive_cont. eexists. apply is_derive_RInt_cont; auto.
  - replace (RInt g a a) with 0 in Hc; [lra|]. symmetry. apply (RInt_point (V := R_CompleteNormedModule)).
Qed.
Lemma FTC_open_eq (F f : R -> R) (a b v : R) : a <= b ->
  (forall x, a <= x <= b -> continuous F x) ->
  (forall x, a < x < b -> is_derive F x (f x)) ->
  (forall x, a <= x <= b -> continuous f x) -> F b - F a = v ->
  is_RInt f a b v.
Proof. intros ? ? ? ? <-. now apply FTC_open. Qed.

(** arccos *)
Lemma is_derive_acos x : -1 < x < 1 -> is_derive acos x (- / sqrt (1 - x ^ 2)).
Proof.
  intros H. apply is_derive_Reals. pose proof (derive_pt_acos x H) as E.
  assert (E' : derive_pt acos x (derivable_pt_acos x H) = - / sqrt (1 - x ^ 2)).
  { rewrite E. replace (1 - x²) with (1 - x ^ 2) by (unfold Rsqr; ring). field.
    apply Rgt_not_eq, sqrt_lt_R0. nra. }
  rewrite <- E'. apply derive_pt_eq_1 with (derivable_pt_acos x H). reflexivity.
Qed.
Lemma acos_ge_1 x : 1 <= x -> acos x = 0.
Proof. intros. unfold acos. destruct (Rle_dec x (-1)); [lra|]. destruct (Rle_dec 1 x); lra. Qed.
Lemma acos_atan_ext x : 0 < x -> acos x = atan (sqrt (1 - x ^ 2) / x).
Proof.
  intros H. destruct (Rlt_le_dec x 1).
  - rewrite acos_atan by auto. do 3 f_equal. unfold Rsqr. ring.
  - rewrite acos_ge_1 by auto. rewrite sqrt_neg_0 by nra. unfold Rdiv. rewrite Rmult_0_l, atan_0. reflexivity.
Qed.
Lemma cont_sqrt x : continuous sqrt x. Proof. apply continuous_sqrt. Qed.
Lemma cont_atan x : continuous atan x.
Proof. apply ex_derive_cont. eexists. apply is_derive_Reals. apply derivable_pt_lim_atan. Qed.
Lemma cont_inv x : x <> 0 -> continuous Rinv x.
Proof. intros. apply ex_derive_cont. auto_derive. auto. Qed.
Lemma cont_acos x : -1 < x -> continuous acos x.
Proof.
  intros H. destruct (Rlt_le_dec x 1) as [H1|H1].
  - apply ex_derive_cont. eexists. apply is_derive_acos. lra.
  - apply (continuous_ext_loc acos (fun t => atan (sqrt (1 - t ^ 2) / t)) x).
    + exists (mkposreal (1 / 2) ltac:(lra)). intros t Ht. symmetry. apply acos_atan_ext.
      unfold ball in Ht. cbn in Ht. unfold AbsRing_ball, abs, minus, plus, opp in Ht. cbn in Ht.
      apply Rabs_def2 in Ht. lra.
    + apply (cont_comp (fun t => sqrt (1 - t ^ 2) / t) atan); [|apply cont_atan].
      apply cont_mult; [|apply cont_inv; lra].
      apply (cont_comp (fun t => 1 - t ^ 2) sqrt); [|apply cont_sqrt]. apply ex_derive_cont. auto_derive. auto.
Qed.
