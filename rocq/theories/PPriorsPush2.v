(** The isotropic chi_eff prior (preprocess/priors.py:79-196) returns the pushforward density; its value at a NaN
    boundary; the reference distribution. *)
From Coq Require Import Lia Lra.
From Verif Require Export PPriorsPush.
From Verif Require Export Spec.
Open Scope R_scope.

Definition push (q a x s : R) : R := iso_spin a s * iso_spin a (((1 + q) * x - s) / q) * ((1 + q) / q).

Lemma iso_spin_in a s : 0 < a -> s <> 0 -> Rabs s < a -> iso_spin a s = (ln a - la s) / (2 * a).
Proof. intros Ha Hs H. unfold iso_spin. destruct Rlt_dec; [|lra]. unfold la. rewrite ln_div; auto. apply Rabs_pos_lt; auto. Qed.
Lemma iso_spin_out a s : a <= Rabs s -> iso_spin a s = 0.
Proof. intros H. unfold iso_spin. destruct Rlt_dec; [lra|auto]. Qed.
Lemma iso_spin_even a s : iso_spin a (- s) = iso_spin a s.
Proof. unfold iso_spin. rewrite Rabs_Ropp. auto. Qed.

Lemma newton_ext_off f g a b I T : (forall x, a < x < b -> ~ In x T -> f x = g x) -> newton_integral f a b I -> newton_integral g a b I.
Proof.
  intros E (F & S & Fc & Fd & ->). exists F, (T ++ S)%list. split; [|split]; auto. intros x Hx Hn. rewrite <- E; auto.
  - apply Fd; auto. intros Hi. apply Hn. apply in_or_app; auto.
  - intros Hi. apply Hn. apply in_or_app; auto.
Qed.

Lemma push_in q a x s : 0 < q <= 1 -> 0 < a -> s <> 0 -> (1 + q) * x - s <> 0 -> Rabs s < a -> Rabs ((1 + q) * x - s) < q * a ->
  push q a x s = pref q a * ((ln a - la s) * (ln (q * a) - la ((1 + q) * x - s))).
Proof.
  intros Hq Ha H1 H2 H3 H4. unfold push. set (u := (1 + q) * x - s) in *. assert (Iq : 0 < / q) by (apply Rinv_0_lt_compat; lra).
  assert (Hu : u / q <> 0) by (unfold Rdiv; apply Rmult_integral_contrapositive; split; auto; lra).
  assert (Ru : Rabs (u / q) = Rabs u / q) by (unfold Rdiv; rewrite Rabs_mult, (Rabs_right (/ q)) by lra; auto).
  assert (Hr : Rabs (u / q) < a). { rewrite Ru. apply Rmult_lt_reg_r with q; [lra|]. unfold Rdiv. rewrite Rmult_assoc, Rinv_l by lra. lra. }
  rewrite !iso_spin_in by auto. unfold la at 2. rewrite Ru, ln_div by (try lra; apply Rabs_pos_lt; auto). rewrite ln_mult by lra. unfold pref, la. field. lra.
Qed.
Lemma push_out q a x s : 0 < q <= 1 -> 0 < a -> a <= Rabs s \/ q * a <= Rabs ((1 + q) * x - s) -> push q a x s = 0.
Proof.
  intros Hq Ha [H|H]; unfold push; [rewrite (iso_spin_out a s) by auto; ring|].
  rewrite (iso_spin_out a (_ / q)); [ring|]. assert (Iq : 0 < / q) by (apply Rinv_0_lt_compat; lra).
  unfold Rdiv. rewrite Rabs_mult, (Rabs_right (/ q)) by lra. apply Rmult_le_reg_r with q; [lra|]. rewrite Rmult_assoc, Rinv_l by lra. lra.
Qed.

(** the window |s| < a, |X - s| < q a as an interval *)
Lemma push_window q a x D lo hi : 0 < q <= 1 -> 0 < a -> 0 < x -> dilogarithm D ->
  lo = (1 + q) * x - q * a -> hi = Rmin a ((1 + q) * x + q * a) -> x < a ->
  newton_integral (push q a x) (- a) a (pref q a * (Jac ((1 + q) * x) a (q * a) D ((1 + q) * x - lo) - Jac ((1 + q) * x) a (q * a) D ((1 + q) * x - hi))).
Proof.
  intros Hq Ha Hx HD El Eh Hxa. set (X := (1 + q) * x) in *. assert (HX : 0 < X) by (apply Rmult_lt_0_compat; lra).
  assert (Hb : 0 < q * a <= a) by (split; [apply Rmult_lt_0_compat; lra|nra]).
  assert (HXa : X < a + q * a) by (unfold X; nra).
  assert (L1 : - a <= lo) by lra. assert (L2 : lo <= hi) by (rewrite Eh; unfold Rmin; destruct Rle_dec; lra).
  assert (L3 : hi <= a) by (rewrite Eh; apply Rmin_l). assert (L4 : hi <= X + q * a) by (rewrite Eh; apply Rmin_r).
  assert (L5 : hi = a \/ hi = X + q * a) by (rewrite Eh; unfold Rmin; destruct Rle_dec; auto).
  apply (newton_clip (push q a x) (push q a x) lo hi (- a) a); auto.
  - apply (newton_ext_off (fun s => pref q a * integrand X a (q * a) (X - s)) _ _ _ _ [0; X]).
    + intros s Hs Hn. cbn [In] in Hn. assert (s <> 0) by (intros ->; apply Hn; auto). assert (s <> X) by (intros ->; apply Hn; auto).
      rewrite push_in; auto; fold X; [|lra|apply Rabs_def1; lra|apply Rabs_def1; lra].
      unfold integrand. replace (X - (X - s)) with s by ring. reflexivity.
    + apply Jac_integral; auto.
  - intros s Hs. apply push_out; auto. right. fold X. rewrite Rabs_right by lra. lra.
  - intros s Hs. apply push_out; auto. destruct L5 as [E|E]; [lra|]. right. fold X. rewrite Rabs_left by lra. lra.
Qed.

Lemma push_zero_val q a : 0 < q <= 1 -> 0 < a -> newton_integral (push q a 0) (- a) a ((1 + q) / (2 * a) * (2 - ln q)).
Proof.
  intros Hq Ha. assert (Hb : 0 < q * a <= a) by (split; [apply Rmult_lt_0_compat; lra|nra]).
  apply (newton_clip (push q a 0) (push q a 0) (- (q * a)) (q * a)); try lra; auto.
  - apply (newton_ext_off (fun s => pref q a * ((ln a - la s) * (ln (q * a) - la s))) _ _ _ _ (0 :: nil)).
    + intros s Hs Hn. assert (s <> 0) by (intros ->; apply Hn; left; auto).
      rewrite push_in; auto; [|lra|apply Rabs_def1; lra|apply Rabs_def1; lra].
      replace ((1 + q) * 0 - s) with (- s) by ring. rewrite la_opp. reflexivity.
    + replace ((1 + q) / (2 * a) * (2 - ln q)) with (pref q a * (Jac0 a (q * a) (q * a) - Jac0 a (q * a) (- (q * a)))); [apply Jac0_integral|].
      unfold Jac0, pref. rewrite la_opp, !la_pos, ln_mult by lra. field. lra.
  - intros s Hs. apply push_out; auto. right. rewrite Rabs_right by lra. lra.
  - intros s Hs. apply push_out; auto. right. rewrite Rabs_left by lra. lra.
Qed.

Lemma push_far q a x : 0 < q <= 1 -> 0 < a -> a <= x -> newton_integral (push q a x) (- a) a 0.
Proof.
  intros Hq Ha Hx. exists (fun _ => 0), nil. split; [|split].
  - intros s _. apply cconst.
  - intros s Hs _. rewrite push_out; auto; [apply @is_derive_const|]. right. assert (0 < q * a) by (apply Rmult_lt_0_compat; lra). assert (q * a <= q * x) by nra. rewrite Rabs_right by lra. lra.
  - ring.
Qed.

Definition regular (q a x : R) : Prop := x <> a * (1 - q) / (1 + q) /\ x <> q * a / (1 + q) /\ x <> a / (1 + q).

Lemma select_value q a D Di x : 0 < q <= 1 -> 0 < a -> dilogarithm D -> (forall y, Di (Fin y) = Fin (D y)) ->
  0 <= x -> x = 0 \/ regular q a x ->
  exists v, iso_select Di (Fin x) (Fin q) (Fin a) = Some (Fin v) /\ newton_integral (push q a x) (- a) a v.
Proof.
  intros Hq Ha HD HDi Hx Hreg. pose proof (rb_facts q a Hq Ha) as (F1 & F2 & F3 & F4 & F5 & F6).
  assert (B1 : forall y, y < rb1 q a <-> (1 + q) * y < a - q * a).
  { intros y. unfold rb1. split; intros H.
    - apply (Rmult_lt_compat_l (1 + q)) in H; [|lra]. replace ((1 + q) * (a * (1 - q) / (1 + q))) with (a - q * a) in H by (field; lra). lra.
    - apply Rmult_lt_reg_l with (1 + q); [lra|]. replace ((1 + q) * (a * (1 - q) / (1 + q))) with (a - q * a) by (field; lra). lra. }
  assert (B2 : forall y, y < rb2 q a <-> (1 + q) * y < q * a).
  { intros y. unfold rb2. split; intros H.
    - apply (Rmult_lt_compat_l (1 + q)) in H; [|lra]. replace ((1 + q) * (q * a / (1 + q))) with (q * a) in H by (field; lra). lra.
    - apply Rmult_lt_reg_l with (1 + q); [lra|]. replace ((1 + q) * (q * a / (1 + q))) with (q * a) by (field; lra). lra. }
  assert (B3 : forall y, y < rb3 q a <-> (1 + q) * y < a).
  { intros y. unfold rb3. split; intros H.
    - apply (Rmult_lt_compat_l (1 + q)) in H; [|lra]. replace ((1 + q) * (a / (1 + q))) with a in H by (field; lra). lra.
    - apply Rmult_lt_reg_l with (1 + q); [lra|]. replace ((1 + q) * (a / (1 + q))) with a by (field; lra). lra. }
  destruct (Req_dec x 0) as [->|Hx0].
  { exists ((1 + q) / (2 * a) * (2 - ln q)). split; [|apply push_zero_val; auto]. unfold iso_select, iso_caseZ. cbn [neqb]. rewrite Reqb_t by auto. rewrite value_Z; auto. }
  destruct Hreg as [|(N1 & N2 & N3)]; [contradiction|].
  assert (Hp : 0 < x) by lra.
  assert (G1 : (1 + q) * x <> a - q * a). { intros E. apply N1. apply Rmult_eq_reg_l with (1 + q); [|lra]. rewrite E. field. lra. }
  assert (G2 : (1 + q) * x <> q * a). { intros E. apply N2. apply Rmult_eq_reg_l with (1 + q); [|lra]. rewrite E. field. lra. }
  assert (G3 : (1 + q) * x <> a). { intros E. apply N3. apply Rmult_eq_reg_l with (1 + q); [|lra]. rewrite E. field. lra. }
  destruct (Rle_dec a x) as [Hfar|Hnear].
  { exists 0. split; [|apply push_far; auto].
    unfold iso_select. destruct (iso_b_fin q a ltac:(lra)) as (E1 & E2 & E3).
    unfold iso_caseZ, iso_caseA, iso_caseB, iso_caseC, iso_caseD, iso_caseE, iso_caseF, ngt, nge. rewrite E1, E2, E3. cbn [neqb nlt nle].
    rewrite Reqb_f by auto. rewrite (Rltb_f x (rb1 q a)), (Rltb_f x (rb2 q a)), (Rltb_f x (rb3 q a)), (Rltb_f x a) by lra.
    rewrite (Rleb_t a x) by auto. rewrite ?Bool.andb_false_r. reflexivity. }
  assert (Hxa : x < a) by lra.
  pose proof (push_window q a x D _ _ Hq Ha Hp HD eq_refl eq_refl Hxa) as W. replace ((1 + q) * x - ((1 + q) * x - q * a)) with (q * a) in W by ring.
  destruct (iso_b_fin q a ltac:(lra)) as (E1 & E2 & E3).
  unfold iso_select, iso_caseZ, iso_caseA, iso_caseB, iso_caseC, iso_caseD, iso_caseE, iso_caseF, ngt, nge. rewrite E1, E2, E3. cbn [neqb nlt nle].
  rewrite Reqb_f by auto. rewrite (Rltb_t 0 x) by auto.
  destruct (Rlt_dec x (rb1 q a)) as [H1|H1].
  - assert (Eh : Rmin a ((1 + q) * x + q * a) = (1 + q) * x + q * a) by (apply Rmin_right; apply B1 in H1; lra).
    rewrite Eh in W. replace ((1 + q) * x - ((1 + q) * x + q * a)) with (- (q * a)) in W by ring.
    rewrite (Rltb_t x (rb1 q a)) by auto. destruct (Rlt_dec x (rb2 q a)) as [H2|H2].
    + rewrite (Rltb_t x (rb2 q a)) by auto. cbn [andb]. apply B2 in H2. eexists. split; [rewrite (value_A q a D Di Hq Ha HDi x Hp H2); reflexivity|exact W].
    + assert (H2' : q * a < (1 + q) * x) by (pose proof (B2 x); lra). assert (rb2 q a < x) by (destruct (Req_dec x (rb2 q a)); [unfold rb2 in *; contradiction|lra]).
      rewrite (Rltb_f x (rb2 q a)), (Rltb_t (rb2 q a) x) by lra. cbn [andb]. eexists. split; [rewrite (value_B q a D Di Hq Ha HDi x Hp H2'); reflexivity|exact W].
  - assert (H1' : rb1 q a < x) by (destruct (Req_dec x (rb1 q a)); [unfold rb1 in *; contradiction|lra]).
    assert (Eh : Rmin a ((1 + q) * x + q * a) = a) by (apply Rmin_left; pose proof (B1 x); lra).
    rewrite Eh in W. rewrite (Rltb_f x (rb1 q a)), (Rltb_t (rb1 q a) x) by lra. cbn [andb].
    destruct (Rlt_dec x (rb2 q a)) as [H2|H2].
    + rewrite (Rltb_t x (rb2 q a)) by auto. cbn [andb]. apply B2 in H2. eexists. split; [rewrite (value_C q a D Di Hq Ha HDi x Hp H2); reflexivity|exact W].
    + assert (H2' : q * a < (1 + q) * x) by (pose proof (B2 x); lra). rewrite (Rltb_f x (rb2 q a)), (Rleb_t (rb2 q a) x) by lra. cbn [andb].
      destruct (Rlt_dec x (rb3 q a)) as [H3|H3].
      * rewrite (Rltb_t x (rb3 q a)) by auto. cbn [andb]. apply B3 in H3. eexists. split; [rewrite (value_D q a D Di Hq Ha HDi x Hp H2' H3); reflexivity|exact W].
      * assert (H3' : a < (1 + q) * x) by (pose proof (B3 x); lra). assert (rb3 q a < x) by (destruct (Req_dec x (rb3 q a)); [unfold rb3 in *; contradiction|lra]).
        rewrite (Rltb_f x (rb3 q a)), (Rltb_t (rb3 q a) x), (Rltb_t x a) by lra. cbn [andb]. eexists. split; [rewrite (value_E q a D Di Hq Ha HDi x Hp H3'); reflexivity|exact W].
Qed.

Lemma iso_pushforward q a D Di x n : 0 < q <= 1 -> 0 < a -> dilogarithm D -> (forall y, Di (Fin y) = Fin (D y)) ->
  x = 0 \/ regular q a (Rabs x) ->
  exists v, chi_effective_prior_from_isotropic_spins (S n) Di (Fin x) (Fin q) (Fin a) = Ok (Fin v) /\
    newton_integral (push q a x) (- a) a v.
Proof.
  intros Hq Ha HD HDi Hreg.
  assert (Hr : Rabs x = 0 \/ regular q a (Rabs x)) by (destruct Hreg as [->|]; [left; apply Rabs_R0|auto]).
  destruct (select_value q a D Di (Rabs x) Hq Ha HD HDi (Rabs_pos x) Hr) as (v & Ev & Nv). exists v. split.
  - cbn [chi_effective_prior_from_isotropic_spins]. rewrite nabs_fin, Ev. reflexivity.
  - destruct (Rle_dec 0 x) as [H|H]; [rewrite Rabs_right in Nv by lra; auto|]. rewrite Rabs_left in Nv by lra.
    apply newton_flip in Nv. rewrite Ropp_involutive in Nv. eapply newton_ext; [|exact Nv].
    intros s _. unfold push. replace (((1 + q) * - x - - s) / q) with (- (((1 + q) * x - s) / q)) by (field; lra). rewrite !iso_spin_even. reflexivity.
Qed.

(** the averages on the boundaries *)
Lemma iso_boundary_push q a D Di x n : 0 < q <= 1 -> 0 < a -> dilogarithm D -> (forall y, Di (Fin y) = Fin (D y)) ->
  iso_select Di (Fin (Rabs x)) (Fin q) (Fin a) = None ->
  regular q a (Rabs x + / 1000000) -> regular q a (Rabs (Rabs x - / 1000000)) ->
  exists u v, chi_effective_prior_from_isotropic_spins (S (S n)) Di (Fin x) (Fin q) (Fin a) = Ok (Fin ((u + v) / 2)) /\
    newton_integral (push q a (Rabs x + / 1000000)) (- a) a u /\ newton_integral (push q a (Rabs x - / 1000000)) (- a) a v.
Proof.
  intros Hq Ha HD HDi Hn R1 R2. pose proof (Rabs_pos x).
  assert (R1' : regular q a (Rabs (Rabs x + / 1000000))) by (rewrite (Rabs_right (Rabs x + / 1000000)) by lra; auto).
  destruct (iso_pushforward q a D Di _ n Hq Ha HD HDi (or_intror R1')) as (u & Eu & Nu).
  destruct (iso_pushforward q a D Di _ n Hq Ha HD HDi (or_intror R2)) as (v & Ev & Nv).
  exists u, v. split; [|auto]. rewrite (iso_boundary_average (S n) Di x q a (Fin u) (Fin v)) by auto. rewrite nadd_fin, nmul_fin. do 2 f_equal. field.
Qed.

(** ** The inclusive boundary of case D *)
Lemma iso_D_nan Di n q a : / 2 < q < 1 -> 0 < a -> exists x, x = q * a / (1 + q) /\ 0 < x < a /\
  chi_effective_prior_from_isotropic_spins (S n) Di (Fin x) (Fin q) (Fin a) = Ok NaN.
Proof.
  intros Hq Ha. assert (Hq' : 0 < q <= 1) by lra. exists (q * a / (1 + q)). split; [auto|].
  pose proof (rb_facts q a Hq' Ha) as (F1 & F2 & F3 & F4 & F5 & F6). change (q * a / (1 + q)) with (rb2 q a). split; [lra|].
  assert (N : rb1 q a < rb2 q a). { unfold rb1, rb2. apply Rmult_lt_compat_r; [apply Rinv_0_lt_compat; lra|nra]. }
  assert (N3 : rb2 q a < rb3 q a). { unfold rb2, rb3. apply Rmult_lt_compat_r; [apply Rinv_0_lt_compat; lra|nra]. }
  cbn [chi_effective_prior_from_isotropic_spins]. rewrite nabs_fin, Rabs_right by lra.
  destruct (iso_b_fin q a ltac:(lra)) as (E1 & E2 & E3).
  unfold iso_select, iso_caseZ, iso_caseA, iso_caseB, iso_caseC, iso_caseD, iso_caseE, iso_caseF, ngt, nge. rewrite E1, E2, E3. cbn [neqb nlt nle].
  rewrite Reqb_f by lra. rewrite (Rltb_t 0), (Rltb_f (rb2 q a) (rb1 q a)), (Rltb_t (rb1 q a)), (Rltb_f (rb2 q a) (rb2 q a)), (Rltb_t (rb2 q a) (rb3 q a)), Rleb_t by lra.
  cbn [andb]. f_equal.
  assert (EX : (1 + q) * rb2 q a = q * a) by (unfold rb2; field; lra).
  assert (Hqa : 0 < q * a < a) by nra.
  assert (I1 : ndiv (Fin a) (Fin 0) = PInf). { cbn [ndiv]. rewrite Reqb_t by auto. apply sinf_pos; auto. }
  assert (Nl : forall z, nadd NaN z = NaN) by (intros []; reflexivity).
  assert (Nm : forall r, nmul (Fin r) NaN = NaN) by reflexivity.
  pose proof (div_pos (q * a) (a - q * a) ltac:(lra) ltac:(lra)). pose proof (div_pos (q * a) a ltac:(lra) ltac:(lra)).
  unfold iso_D. rewrite pref_fin by auto. repeat progress (rewrite ?nadd_fin, ?nmul_fin, ?EX, ?nsub_fin, ?nneg_fin).
  replace (q * a - q * a) with 0 by ring. replace (- q * a + q * a) with 0 by ring. rewrite I1. cbn [nlog]. rewrite (Rltb_t 0 a) by auto. rewrite npowi_fin.
  rewrite ?(ndiv_fin _ (a - q * a)), ?(ndiv_fin _ a), ?(ndiv_fin _ q) by lra. rewrite ?nmul_fin.
  replace (0 * (a - q * a)) with 0 by ring. rewrite ?ndiv_fin by lra. replace (0 / q) with 0 by (field; lra).
  cbn [nlog]. rewrite !(Rltb_t 0) by lra. rewrite !(Rltb_f 0 0), (Reqb_t 0 0) by lra.
  repeat progress (rewrite ?nadd_fin, ?nmul_fin, ?nsub_fin). cbn [nmul]. rewrite !sinf_pos by lra. cbn [nneg nsub nadd nmul].
  reflexivity.
Qed.

(** ** The reference distribution *)
Lemma iso_spin_mixture A s : 0 < Rabs s < A -> is_RInt (fun a => / A * / (2 * a)) (Rabs s) A (iso_spin A s).
Proof.
  intros H. unfold iso_spin. destruct Rlt_dec; [|lra]. rewrite ln_div by lra.
  replace ((ln A - ln (Rabs s)) / (2 * A)) with (ln A / (2 * A) - ln (Rabs s) / (2 * A)) by (field; lra).
  apply (is_RInt_derive (fun a => ln a / (2 * A)) (fun a => / A * / (2 * a))).
  - intros x Hx. rewrite Rmin_left, Rmax_right in Hx by lra. auto_derive; [lra|]. field. lra.
  - intros x Hx. rewrite Rmin_left, Rmax_right in Hx by lra. apply ex_derive_cont. auto_derive. lra.
Qed.
Lemma iso_spin_one A : 0 < A -> newton_integral (iso_spin A) (- A) A 1.
Proof.
  intros HA. exists (fun s => / (2 * A) * (s * ln A - (s * la s - s))), (0 :: nil). split; [|split].
  - intros s _. pose proof (tla_cont s) as C2. cc ltac:(exact C2).
  - intros s Hs Hn. assert (Hs0 : s <> 0) by (intros ->; apply Hn; left; auto). rewrite iso_spin_in by (auto; apply Rabs_def1; lra).
    pose proof (la_derive s Hs0) as L0. auto_derive; [repeat split; eexists; eassumption|].
    change (Derive (fun x : R => la x) s) with (Derive la s). rewrite (is_derive_unique _ _ _ L0). field. lra.
  - rewrite la_opp, la_pos by auto. field. lra.
Qed.
Lemma iso_spin_pos A s : 0 < A -> s <> 0 -> 0 <= iso_spin A s.
Proof.
  intros HA Hs. destruct (Rlt_dec (Rabs s) A) as [H|H]; [|rewrite iso_spin_out by lra; lra].
  rewrite iso_spin_in by auto. assert (0 < Rabs s) by (apply Rabs_pos_lt; auto).
  apply Rmult_le_pos; [|left; apply Rinv_0_lt_compat; lra]. unfold la. assert (ln (Rabs s) <= ln A) by (left; apply ln_increasing; auto). lra.
Qed.
Lemma push_nonneg q a x v : 0 < q <= 1 -> 0 < a -> newton_integral (push q a x) (- a) a v -> 0 <= v.
Proof.
  intros Hq Ha (F & S & Fc & Fd & ->). enough (F (- a) <= F a) by lra.
  apply (mono_except (0 :: (1 + q) * x :: S)); [lra|auto|]. intros s Hs Hn. exists (push q a x s). split.
  - apply Fd; auto. intros K. apply Hn. right; right; auto.
  - assert (s <> 0) by (intros ->; apply Hn; left; auto). assert ((1 + q) * x - s <> 0) by (intros K; apply Hn; right; left; lra).
    assert (0 < / q) by (apply Rinv_0_lt_compat; lra).
    unfold push. apply Rmult_le_pos; [apply Rmult_le_pos; apply iso_spin_pos; auto|]; [|apply Rmult_le_pos; lra].
    unfold Rdiv. apply Rmult_integral_contrapositive. split; lra.
Qed.
Lemma iso_pushforward_prop : forall q a D Di x n, 0 < q <= 1 -> 0 < a -> dilogarithm D -> (forall y, Di (Fin y) = Fin (D y)) ->
  x = 0 \/ (Rabs x <> a * (1 - q) / (1 + q) /\ Rabs x <> q * a / (1 + q) /\ Rabs x <> a / (1 + q)) ->
  exists v, chi_effective_prior_from_isotropic_spins (S n) Di (Fin x) (Fin q) (Fin a) = Ok (Fin v) /\ 0 <= v /\
    newton_integral (fun s => iso_spin a s * iso_spin a (((1 + q) * x - s) / q) * ((1 + q) / q)) (- a) a v.
Proof.
  intros q a D Di x n Hq Ha HD HDi Hr. destruct (iso_pushforward q a D Di x n Hq Ha HD HDi Hr) as (v & Ev & Nv).
  exists v. split; [auto|split; [apply (push_nonneg q a x v); auto|exact Nv]].
Qed.
