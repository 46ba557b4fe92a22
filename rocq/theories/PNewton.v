(** Facts about [newton_integral]: it is unique, agrees with the Riemann integral, and is monotone. *)
From Coq Require Import Lia Lra.
From Verif Require Export SpecNewton Calc.
From Verif Require Export Spec.
Open Scope R_scope.

Lemma mono_base F a b : a < b -> (forall x, a <= x <= b -> continuous F x) ->
  (forall x, a < x < b -> exists d, is_derive F x d /\ 0 <= d) -> F a <= F b.
Proof.
  intros Hab Hc Hd.
  assert (pr1 : forall c, a < c < b -> derivable_pt F c).
  { intros c Hc'. apply ex_derive_Reals_0. destruct (Hd c Hc') as (d & D & _). exists d; auto. }
  assert (pr2 : forall c, a < c < b -> derivable_pt id c) by (intros; apply derivable_pt_id).
  destruct (MVT F id a b pr1 pr2 Hab) as (c & P & E).
  - intros c Hc'. apply continuity_pt_filterlim. apply Hc; auto.
  - intros c _. apply derivable_continuous_pt, derivable_pt_id.
  - destruct (Hd c P) as (d & D & Pd). rewrite (derive_pt_eq_0 _ _ _ (pr1 c P) (proj1 (is_derive_Reals F c d) D)) in E.
    rewrite (derive_pt_eq_0 id c 1 (pr2 c P) (derivable_pt_lim_id c)) in E. unfold id in E. nra.
Qed.
Lemma mono_except S : forall F a b, a <= b -> (forall x, a <= x <= b -> continuous F x) ->
  (forall x, a < x < b -> ~ In x S -> exists d, is_derive F x d /\ 0 <= d) -> F a <= F b.
Proof.
  induction S as [|p S IH]; intros F a b Hab Hc Hd.
  - destruct (Req_dec a b) as [->|Hne]; [lra|]. apply mono_base; auto. lra.
  - destruct (Rlt_dec a p) as [Hp|Hp]; [destruct (Rlt_dec p b) as [Hq|Hq]|].
    + apply Rle_trans with (F p); apply IH; try lra; intros x Hx; try (apply Hc; lra);
      intros Hn; apply Hd; try lra; intros [->|]; auto; lra.
    + apply IH; auto. intros x Hx Hn. apply Hd; auto. intros [->|]; auto; lra.
    + apply IH; auto. intros x Hx Hn. apply Hd; auto. intros [->|]; auto; lra.
Qed.

Lemma newton_unique f a b I J : a <= b -> newton_integral f a b I -> newton_integral f a b J -> I = J.
Proof.
  intros Hab.
  assert (K : forall I J, newton_integral f a b I -> newton_integral f a b J -> I <= J).
  { clear I J. intros I J (F & S & Fc & Fd & ->) (G & T & Gc & Gd & ->).
    pose proof (mono_except (S ++ T) (fun x => G x - F x) a b Hab) as M.
    cbv beta in M. enough (G a - F a <= G b - F b) by lra. apply M.
    - intros x Hx. apply @continuous_minus; auto.
    - intros x Hx Hn. exists (f x - f x). split; [|lra]. apply @is_derive_minus; [apply Gd|apply Fd]; auto;
      intros Hi; apply Hn, in_or_app; auto. }
  intros H1 H2. apply Rle_antisym; auto.
Qed.
Lemma newton_nonneg f a b I : a <= b -> (forall x, a < x < b -> 0 <= f x) -> newton_integral f a b I -> 0 <= I.
Proof.
  intros Hab Hf (F & S & Fc & Fd & ->). enough (F a <= F b) by lra. apply (mono_except S); auto.
  intros x Hx Hn. exists (f x). auto.
Qed.

(** a Riemann integral of a continuous function is a Newton integral *)
Lemma newton_of_RInt (f : R -> R) (a b I : R) : a < b -> (forall x, continuous f x) -> is_RInt f a b I -> newton_integral f a b I.
Proof.
  intros Hab Hc HI. exists (fun x => RInt f a x), nil.
  assert (D : forall x, is_derive (fun x => RInt f a x) x (f x)).
  { intros x. apply is_derive_RInt with (a := a); [|apply Hc]. apply filter_forall. intros y. apply @RInt_correct.
    apply @ex_RInt_continuous. intros; apply Hc. }
  split; [|split].
  - intros x _. apply ex_derive_cont. eexists; apply D.
  - intros x _ _. apply D.
  - rewrite (is_RInt_unique _ _ _ _ HI). rewrite RInt_point. unfold zero; cbn. ring.
Qed.
Lemma newton_flip f a b I : newton_integral f a b I -> newton_integral (fun x => f (- x)) (- b) (- a) I.
Proof.
  intros (F & S & Fc & Fd & ->). exists (fun x => - F (- x)), (map Ropp S). split; [|split].
  - intros x Hx. apply @continuous_opp. apply (continuous_comp Ropp F); [apply @continuous_opp, continuous_id|apply Fc; lra].
  - intros x Hx Hn. replace (f (- x)) with (- (- (1) * f (- x))) by ring. apply @is_derive_opp.
    apply (is_derive_comp F Ropp x (f (- x)) (- (1))).
    + apply Fd; [lra|]. intros Hi. apply Hn. apply in_map_iff. exists (- x). split; auto; lra.
    + apply @is_derive_opp. apply @is_derive_id.
  - rewrite !Ropp_involutive. ring.
Qed.
Lemma newton_ext f g a b I : (forall x, a < x < b -> f x = g x) -> newton_integral f a b I -> newton_integral g a b I.
Proof.
  intros E (F & S & Fc & Fd & ->). exists F, S. split; [|split]; auto. intros x Hx Hn. rewrite <- E by auto. auto.
Qed.

(** ** Continuity of products with the logarithm *)
Lemma xln_small u : 0 < u -> u < 1 -> Rabs (u * ln u) <= 2 * sqrt u.
Proof.
  intros H0 H1. assert (S0 : 0 < sqrt u) by (apply sqrt_lt_R0; auto).
  assert (E : ln u = 2 * ln (sqrt u)) by (rewrite <- (sqrt_sqrt u) at 1 by lra; rewrite ln_mult by auto; ring).
  assert (L : - ln (sqrt u) <= / sqrt u).
  { rewrite <- ln_Rinv by auto. assert (P : 0 < / sqrt u) by (apply Rinv_0_lt_compat; auto).
    destruct (Rle_dec 1 (/ sqrt u)).
    - pose proof (exp_ineq1_le (ln (/ sqrt u))) as Q. rewrite exp_ln in Q by auto. lra.
    - assert (ln (/ sqrt u) < ln 1) by (apply ln_increasing; lra). rewrite ln_1 in *. lra. }
  assert (N : ln u < 0) by (rewrite <- ln_1; apply ln_increasing; lra).
  rewrite Rabs_mult, (Rabs_right u), (Rabs_left (ln u)) by lra. rewrite E.
  replace (u * - (2 * ln (sqrt u))) with (2 * (u * - ln (sqrt u))) by ring.
  apply Rmult_le_compat_l; [lra|]. apply Rle_trans with (u * / sqrt u); [apply Rmult_le_compat_l; lra|].
  rewrite <- (sqrt_sqrt u) at 1 by lra. rewrite Rmult_assoc, Rinv_r by lra. lra.
Qed.
Lemma ln_prod_cont (phi : R -> R) p : ex_derive phi p -> continuous (fun t => (phi t - phi p) * ln (Rabs (t - p))) p.
Proof.
  intros (l & Hl). apply is_derive_Reals in Hl. destruct (Hl 1 ltac:(lra)) as (d1 & Hd1).
  intros Q HQ. unfold filtermap. destruct HQ as (e & He).
  set (C0 := Rabs l + 1). assert (C0p : 0 < C0) by (unfold C0; pose proof (Rabs_pos l); lra).
  set (r := e / (2 * C0)). assert (Hr : 0 < r) by (unfold r; apply Rdiv_lt_0_compat; [apply cond_pos|lra]).
  assert (Hd : 0 < Rmin (Rmin d1 1) (r * r)) by (repeat apply Rmin_glb_lt; try apply cond_pos; try lra; nra).
  exists (mkposreal _ Hd). intros t. change R in (type of t). intros Ht. change (Rabs (t - p) < Rmin (Rmin d1 1) (r * r)) in Ht.
  apply He. change (Rabs ((phi t - phi p) * ln (Rabs (t - p)) - (phi p - phi p) * ln (Rabs (p - p))) < e).
  replace ((phi p - phi p) * ln (Rabs (p - p))) with 0 by ring. rewrite Rminus_0_r.
  destruct (Req_dec t p) as [->|Hne]; [replace ((phi p - phi p) * ln (Rabs (p - p))) with 0 by ring; rewrite Rabs_R0; apply cond_pos|].
  set (u := Rabs (t - p)) in *. assert (Hu : 0 < u) by (apply Rabs_pos_lt; lra).
  assert (u < d1) by (eapply Rlt_le_trans; [exact Ht|]; eapply Rle_trans; [apply Rmin_l|apply Rmin_l]).
  assert (u < 1) by (eapply Rlt_le_trans; [exact Ht|]; eapply Rle_trans; [apply Rmin_l|apply Rmin_r]).
  assert (Hrr : u < r * r) by (eapply Rlt_le_trans; [exact Ht|apply Rmin_r]).
  assert (B : Rabs (phi t - phi p) <= C0 * u).
  { assert (Hh : t - p <> 0) by lra. specialize (Hd1 (t - p) Hh ltac:(fold u; lra)).
    replace (p + (t - p)) with t in Hd1 by ring.
    replace (phi t - phi p) with (((phi t - phi p) / (t - p) - l) * (t - p) + l * (t - p)) by (field; auto).
    eapply Rle_trans; [apply Rabs_triang|]. rewrite !Rabs_mult. fold u. unfold C0.
    replace ((Rabs l + 1) * u) with (1 * u + Rabs l * u) by ring. apply Rplus_le_compat_r, Rmult_le_compat_r; lra. }
  rewrite Rabs_mult. apply Rle_lt_trans with (C0 * u * Rabs (ln u)); [apply Rmult_le_compat_r; [apply Rabs_pos|auto]|].
  replace (C0 * u * Rabs (ln u)) with (C0 * Rabs (u * ln u)) by (rewrite Rabs_mult, (Rabs_right u) by lra; ring).
  apply Rle_lt_trans with (C0 * (2 * sqrt u)); [apply Rmult_le_compat_l; [lra|apply xln_small; auto]|].
  assert (sqrt u < r) by (rewrite <- (sqrt_square r) by lra; apply sqrt_lt_1_alt; lra).
  replace (pos e) with (C0 * (2 * r)) by (unfold r; field; lra). apply Rmult_lt_compat_l; lra.
Qed.
Lemma xln_cont p : continuous (fun t => (t - p) * ln (Rabs (t - p))) p.
Proof.
  apply (continuous_ext (fun t => (t - p - (p - p)) * ln (Rabs (t - p)))).
  - intros; f_equal; ring.
  - apply (ln_prod_cont (fun t => t - p)). auto_derive; auto.
Qed.
Lemma lnabs_derive x : x <> 0 -> is_derive (fun t => ln (Rabs t)) x (/ x).
Proof.
  intros H. destruct (Rlt_dec 0 x) as [Hp|Hn].
  - apply (is_derive_ext_loc ln).
    + exists (mkposreal x Hp). intros y Hy. change (Rabs (y - x) < x) in Hy. apply Rabs_lt_between in Hy. rewrite Rabs_right by lra. reflexivity.
    + apply is_derive_Reals, derivable_pt_lim_ln; auto.
  - assert (Hx : 0 < - x) by lra. apply (is_derive_ext_loc (fun t => ln (- t))).
    + exists (mkposreal (- x) Hx). intros y Hy. change (Rabs (y - x) < - x) in Hy. apply Rabs_lt_between in Hy. rewrite Rabs_left by lra. reflexivity.
    + auto_derive; [lra|]. field. lra.
Qed.
Lemma lnabs_derive_sh p x : x <> p -> is_derive (fun t => ln (Rabs (t - p))) x (/ (x - p)).
Proof.
  intros H. replace (/ (x - p)) with (1 * / (x - p)) by ring.
  apply (is_derive_comp (fun t => ln (Rabs t)) (fun t => t - p) x (/ (x - p)) 1); [apply lnabs_derive; lra|].
  auto_derive; auto.
Qed.
