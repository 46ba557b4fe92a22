(** The isotropic chi_eff prior (preprocess/priors.py:79-196) is the density of the mass-weighted sum of two isotropic spins. *)
From Coq Require Import Lia Lra.
From Verif Require Export PNewton PPriorsIso.
From Verif Require Export Spec.
Open Scope R_scope.

(** ** Extending an integrand by zero *)
Definition clip (lo hi s : R) : R := Rmax lo (Rmin hi s).
Lemma clip_lip lo hi x y : Rabs (clip lo hi x - clip lo hi y) <= Rabs (x - y).
Proof. unfold clip, Rmax, Rmin. repeat destruct Rle_dec; unfold Rabs; repeat destruct Rcase_abs; lra. Qed.
Lemma clip_cont lo hi x : continuous (clip lo hi) x.
Proof.
  intros Q (e & He). exists e. intros y Hy. apply He. change (Rabs (y - x) < e) in Hy.
  change (Rabs (clip lo hi y - clip lo hi x) < e). eapply Rle_lt_trans; [apply clip_lip|auto].
Qed.
Lemma newton_clip f g lo hi a b I : a <= lo -> lo <= hi -> hi <= b -> newton_integral f lo hi I ->
  (forall x, lo < x < hi -> g x = f x) -> (forall x, a < x < lo -> g x = 0) -> (forall x, hi < x < b -> g x = 0) ->
  newton_integral g a b I.
Proof.
  intros H1 H2 H3 (F & S & Fc & Fd & ->) Gi Gl Gh. exists (fun s => F (clip lo hi s)), (lo :: hi :: S). split; [|split].
  - intros x Hx. apply (continuous_comp (clip lo hi) F); [apply clip_cont|]. apply Fc. unfold clip, Rmax, Rmin. repeat destruct Rle_dec; lra.
  - intros x Hx Hn. destruct (Rlt_dec x lo) as [Hlo|Hlo]; [|destruct (Rlt_dec hi x) as [Hhi|Hhi]].
    + rewrite Gl by lra. apply (is_derive_ext_loc (fun _ => F lo)); [|apply @is_derive_const].
      assert (P : 0 < lo - x) by lra. exists (mkposreal _ P). intros y Hy. change (Rabs (y - x) < lo - x) in Hy. apply Rabs_lt_between in Hy.
      f_equal. unfold clip, Rmax, Rmin. repeat destruct Rle_dec; lra.
    + rewrite Gh by lra. apply (is_derive_ext_loc (fun _ => F hi)); [|apply @is_derive_const].
      assert (P : 0 < x - hi) by lra. exists (mkposreal _ P). intros y Hy. change (Rabs (y - x) < x - hi) in Hy. apply Rabs_lt_between in Hy.
      f_equal. unfold clip, Rmax, Rmin. repeat destruct Rle_dec; lra.
    + assert (lo <> x) by (intros ->; apply Hn; left; auto). assert (hi <> x) by (intros ->; apply Hn; right; left; auto).
      rewrite Gi by lra. apply (is_derive_ext_loc F).
      * assert (P : 0 < Rmin (x - lo) (hi - x)) by (apply Rmin_glb_lt; lra). exists (mkposreal _ P). intros y Hy.
        change (Rabs (y - x) < Rmin (x - lo) (hi - x)) in Hy. pose proof (Rmin_l (x - lo) (hi - x)). pose proof (Rmin_r (x - lo) (hi - x)).
        apply Rabs_lt_between in Hy. f_equal. unfold clip, Rmax, Rmin. repeat destruct Rle_dec; lra.
      * apply Fd; [lra|]. intros Hi. apply Hn. right; right; auto.
  - f_equal; f_equal; unfold clip, Rmax, Rmin; repeat destruct Rle_dec; lra.
Qed.

(** ** The antiderivative *)
Definition la (t : R) : R := ln (Rabs t).
Lemma la_derive x : x <> 0 -> is_derive la x (/ x). Proof. apply lnabs_derive. Qed.
Lemma la_pos x : 0 < x -> la x = ln x. Proof. intros. unfold la. rewrite Rabs_right by lra. auto. Qed.
Lemma la_opp x : la (- x) = la x. Proof. unfold la. rewrite Rabs_Ropp. auto. Qed.
Lemma cplus (f g : R -> R) x : continuous f x -> continuous g x -> continuous ((fun t => f t + g t) : R -> R) x. Proof. apply @continuous_plus. Qed.
Lemma cminus (f g : R -> R) x : continuous f x -> continuous g x -> continuous ((fun t => f t - g t) : R -> R) x. Proof. apply @continuous_minus. Qed.
Lemma cmult (f g : R -> R) x : continuous f x -> continuous g x -> continuous ((fun t => f t * g t) : R -> R) x. Proof. apply @continuous_mult. Qed.
Lemma cconst (c x : R) : continuous ((fun _ => c) : R -> R) x. Proof. apply continuous_const. Qed.
Lemma cid (x : R) : continuous ((fun t => t) : R -> R) x. Proof. apply continuous_id. Qed.
Ltac cc stop :=
  first [stop | lazymatch goal with
  | |- continuous (fun t => t) _ => apply cid
  | |- continuous (fun _ => ?c) _ => apply (cconst c)
  | |- continuous (fun t => @?f t - @?g t) _ => apply (cminus f g); cbv beta; cc stop
  | |- continuous (fun t => @?f t + @?g t) _ => apply (cplus f g); cbv beta; cc stop
  | |- continuous (fun t => @?f t * @?g t) _ => apply (cmult f g); cbv beta; cc stop
  end].
Section Anti.
Variables (X a b : R) (D : R -> R).
Hypothesis HX : 0 < X.
Hypothesis HD : dilogarithm D.
Definition phi (t : R) : R := (t - X) * la (t - X).
Definition Jac (t : R) : R :=
  ln a * ln b * t - ln a * (t * la t - t) - ln b * (phi t - (t - X))
  + ((phi t + X * ln X) * la t - phi t - t * la t + 2 * t - X * D (t / X)).
Definition integrand (t : R) : R := (ln a - la (X - t)) * (ln b - la t).
Lemma D_derive_at t : t <> 0 -> t <> X -> is_derive (fun t => D (t / X)) t (- (la (t - X) - ln X) / t).
Proof.
  intros H0 H1. destruct HD as (_ & _ & Dd).
  assert (E : - (la (t - X) - ln X) / t = / X * (- ln (Rabs (1 - t / X)) / (t / X))).
  { replace (1 - t / X) with (- (t - X) * / X) by (field; lra). rewrite Rabs_mult, Rabs_Ropp.
    assert (0 < / X) by (apply Rinv_0_lt_compat; auto). rewrite (Rabs_right (/ X)) by lra.
    rewrite ln_mult; auto; [|apply Rabs_pos_lt; lra]. rewrite ln_Rinv by auto. unfold la. field. lra. }
  rewrite E. apply (is_derive_comp D (fun t => t / X) t (- ln (Rabs (1 - t / X)) / (t / X)) (/ X)).
  - apply Dd.
    + intros Q. apply H0. apply Rmult_eq_reg_r with (/ X); [unfold Rdiv in Q; rewrite Q; ring|apply Rinv_neq_0_compat; lra].
    + intros Q. apply H1. apply Rmult_eq_reg_r with (/ X); [unfold Rdiv in Q; rewrite Q; field; lra|apply Rinv_neq_0_compat; lra].
  - auto_derive; [auto|]. field. lra.
Qed.
Lemma Jac_derive t : t <> 0 -> t <> X -> is_derive Jac t (integrand t).
Proof.
  intros H0 H1. pose proof (la_derive t H0) as L0. assert (H2 : t - X <> 0) by lra. pose proof (la_derive (t - X) H2) as L1.
  pose proof (D_derive_at t H0 H1) as LD.
  assert (P : is_derive phi t (la (t - X) + 1)).
  { unfold phi. auto_derive; [eexists; apply L1|]. change (Derive (fun x : R => la x) (t + - X)) with (Derive la (t - X)). rewrite (is_derive_unique _ _ _ L1). change (la (t + - X)) with (la (t - X)). field. auto. }
  unfold Jac. 
  set (Dt := fun t : R => D (t / X)). change (is_derive Dt t (- (la (t - X) - ln X) / t)) in LD.
  change (is_derive (fun t => ln a * ln b * t - ln a * (t * la t - t) - ln b * (phi t - (t - X)) + ((phi t + X * ln X) * la t - phi t - t * la t + 2 * t - X * Dt t)) t (integrand t)).
  auto_derive; [repeat split; eexists; eassumption|].
  change (Derive (fun x : R => la x) t) with (Derive la t). change (Derive (fun x : R => phi x) t) with (Derive phi t). change (Derive (fun x : R => Dt x) t) with (Derive Dt t).
  rewrite (is_derive_unique _ _ _ L0), (is_derive_unique _ _ _ P), (is_derive_unique _ _ _ LD). unfold integrand, phi.
  replace (la (X - t)) with (la (t - X)) by (rewrite <- la_opp; f_equal; ring). field. auto.
Qed.
Lemma la_cont x : x <> 0 -> continuous la x. Proof. intros. apply ex_derive_cont. eexists; apply la_derive; auto. Qed.
Lemma phi_cont t : continuous phi t.
Proof.
  unfold phi. destruct (Req_dec t X) as [->|Hne]; [apply xln_cont|].
  apply cmult; [apply cminus; [apply cid|apply cconst]|]. apply (continuous_comp (fun t => t - X) la); [apply cminus; [apply cid|apply cconst]|apply la_cont; lra].
Qed.
Lemma tla_cont t : continuous ((fun t => t * la t) : R -> R) t.
Proof.
  destruct (Req_dec t 0) as [->|Hne]; [|apply cmult; [apply cid|apply la_cont; auto]].
  apply (continuous_ext (fun t => (t - 0) * ln (Rabs (t - 0)))); [intros; rewrite Rminus_0_r; reflexivity|apply xln_cont].
Qed.
Lemma phila_cont t : continuous ((fun t => (phi t + X * ln X) * la t) : R -> R) t.
Proof.
  destruct (Req_dec t 0) as [->|Hne]; [|apply cmult; [apply cplus; [apply phi_cont|apply cconst]|apply la_cont; auto]].
  apply (continuous_ext (fun t => (phi t - phi 0) * ln (Rabs (t - 0)))).
  - intros t. rewrite Rminus_0_r. change (ln (Rabs t)) with (la t). f_equal. unfold phi. replace (0 - X) with (- X) by ring. rewrite la_opp, (la_pos X) by auto. ring.
  - apply ln_prod_cont. unfold phi. auto_derive. assert (H : 0 + - X <> 0) by lra. eexists. apply (la_derive _ H).
Qed.
Lemma Jac_cont t : continuous Jac t.
Proof.
  unfold Jac. destruct HD as (_ & Dc & _).
  assert (CD : continuous ((fun t => D (t / X)) : R -> R) t).
  { apply (continuous_comp (fun t => t / X) D); [|apply Dc]. unfold Rdiv. apply cmult; [apply cid|apply cconst]. }
  pose proof (phila_cont t) as C1. pose proof (tla_cont t) as C2. pose proof (phi_cont t) as C3.
  cc ltac:(first [exact C1|exact C2|exact C3|exact CD]).
Qed.
Lemma Jac_integral lo hi c : newton_integral (fun s => c * integrand (X - s)) lo hi (c * (Jac (X - lo) - Jac (X - hi))).
Proof.
  exists (fun s => - c * Jac (X - s)), [0; X]. split; [|split].
  - intros x _. apply cmult; [apply cconst|]. apply (continuous_comp (fun s => X - s) Jac); [apply cminus; [apply cconst|apply cid]|apply Jac_cont].
  - intros x _ Hn. cbn [In] in Hn. assert (N0 : X - x <> 0) by (intros H; apply Hn; right; left; lra). assert (N1 : X - x <> X) by (intros H; apply Hn; left; lra).
    replace (c * integrand (X - x)) with (- c * (-1 * integrand (X - x))) by ring.
    apply (is_derive_scal (fun s => Jac (X - s)) x (- c) (-1 * integrand (X - x))).
    apply (is_derive_comp Jac (fun s => X - s) x (integrand (X - x)) (-1)); [apply Jac_derive; auto|]. auto_derive; auto; ring.
  - ring.
Qed.
End Anti.

(** the value at X = 0 *)
Definition Jac0 (a b t : R) : R := ln a * ln b * t - (ln a + ln b) * (t * la t - t) + (t * la t * la t - 2 * (t * la t) + 2 * t).

Lemma tla2_cont t : continuous ((fun t => t * la t * la t) : R -> R) t.
Proof.
  destruct (Req_dec t 0) as [->|Hne]; [|apply cmult; [apply tla_cont|apply la_cont; auto]].
  intros Q (e & He). pose proof (cond_pos e) as Pe. assert (Hd : 0 < Rmin 1 ((e / 16) * (e / 16))) by (apply Rmin_glb_lt; [lra|apply Rmult_lt_0_compat; lra]).
  exists (mkposreal _ Hd). intros y. change R in (type of y). intros Hy. change (Rabs (y - 0) < Rmin 1 ((e / 16) * (e / 16))) in Hy. rewrite Rminus_0_r in Hy.
  apply He. change (Rabs (y * la y * la y - 0 * la 0 * la 0) < e). replace (0 * la 0 * la 0) with 0 by ring. rewrite Rminus_0_r.
  destruct (Req_dec y 0) as [->|Hy0]; [replace (0 * la 0 * la 0) with 0 by ring; rewrite Rabs_R0; auto|].
  unfold la. set (u := Rabs y) in *. assert (Hu : 0 < u) by (apply Rabs_pos_lt; auto).
  assert (U1 : u < 1) by (eapply Rlt_le_trans; [exact Hy|apply Rmin_l]). assert (U2 : u < (e / 16) * (e / 16)) by (eapply Rlt_le_trans; [exact Hy|apply Rmin_r]).
  assert (V0 : 0 < sqrt u) by (apply sqrt_lt_R0; auto). assert (V1 : sqrt u < 1) by (rewrite <- sqrt_1; apply sqrt_lt_1_alt; lra).
  pose proof (xln_small (sqrt u) V0 V1) as K. set (v := sqrt u) in *. assert (Ev : v * v = u) by (apply sqrt_sqrt; lra).
  assert (El : ln u = 2 * ln v) by (rewrite <- Ev, ln_mult by auto; ring).
  rewrite !Rabs_mult. fold u. rewrite El. rewrite <- Ev. rewrite !Rabs_mult, (Rabs_right 2) by lra.
  rewrite Rabs_mult, (Rabs_right v) in K by lra.
  replace (v * v * (2 * Rabs (ln v)) * (2 * Rabs (ln v))) with (4 * ((v * Rabs (ln v)) * (v * Rabs (ln v)))) by ring.
  set (k := v * Rabs (ln v)) in *. assert (K0 : 0 <= k) by (apply Rmult_le_pos; [lra|apply Rabs_pos]).
  assert (W : sqrt v * sqrt v = v) by (apply sqrt_sqrt; lra). pose proof (sqrt_pos v).
  assert (k * k <= 4 * v) by (rewrite <- W; replace (4 * (sqrt v * sqrt v)) with ((2 * sqrt v) * (2 * sqrt v)) by ring; apply Rmult_le_compat; auto).
  assert (v < e / 16) by (unfold v; rewrite <- (sqrt_square (e / 16)) by lra; apply sqrt_lt_1_alt; lra).
  lra.
Qed.
Lemma Jac0_derive a b t : t <> 0 -> is_derive (Jac0 a b) t ((ln a - la t) * (ln b - la t)).
Proof.
  intros H. pose proof (la_derive t H) as L0. unfold Jac0. auto_derive; [repeat split; eexists; eassumption|].
  change (Derive (fun x : R => la x) t) with (Derive la t). rewrite (is_derive_unique _ _ _ L0). field. auto.
Qed.
Lemma Jac0_integral a b lo hi c : newton_integral (fun s => c * ((ln a - la s) * (ln b - la s))) lo hi (c * (Jac0 a b hi - Jac0 a b lo)).
Proof.
  exists (fun s => c * Jac0 a b s), (0 :: nil). split; [|split].
  - intros x _. apply cmult; [apply cconst|]. unfold Jac0.
    pose proof (tla2_cont x) as C1. pose proof (tla_cont x) as C2. cc ltac:(first [exact C1|exact C2]).
  - intros x _ Hn. apply (is_derive_scal (Jac0 a b)). apply Jac0_derive. intros ->. apply Hn. left; auto.
  - ring.
Qed.

(** ** The formulas *)
Section Values.
Variables (q a : R) (D : R -> R) (Di : num -> num).
Hypothesis Hq : 0 < q <= 1.
Hypothesis Ha : 0 < a.
Hypothesis HDi : forall x, Di (Fin x) = Fin (D x).
Definition pref : R := (1 + q) / (4 * q * a ^ 2).
Variable x : R.
Notation X := ((1 + q) * x).
Lemma pref_fin : iso_pref (Fin q) (Fin a) = Fin pref.
Proof. unfold iso_pref. rewrite npowi_fin, nadd_fin, !nmul_fin, ndiv_fin; [reflexivity|]. assert (0 < a ^ 2) by (apply pow_lt; auto). nra. Qed.

Lemma natanh_fin u : -1 < u < 1 -> natanh (Fin u) = Fin ((ln (1 + u) - ln (1 - u)) / 2).
Proof. intros (? & ?). unfold natanh. rewrite !Rltb_t by auto. cbn [andb]. rewrite ln_div by lra. reflexivity. Qed.
Lemma value_Z : iso_Z (Fin q) (Fin a) = Fin ((1 + q) / (2 * a) * (2 - ln q)).
Proof. unfold iso_Z. rewrite nlog_fin by lra. rewrite nadd_fin, nsub_fin, nmul_fin, ndiv_fin, nmul_fin by lra. reflexivity. Qed.
Lemma div_lt u v : 0 < v -> u < v -> u / v < 1.
Proof. intros. apply Rmult_lt_reg_r with v; auto. unfold Rdiv. rewrite Rmult_assoc, Rinv_l by lra. lra. Qed.
Lemma div_pos u v : 0 < u -> 0 < v -> 0 < u / v.
Proof. intros. apply Rmult_lt_0_compat; auto. apply Rinv_0_lt_compat; auto. Qed.
Ltac side := first [assumption|lra].
Ltac nf := repeat first [ progress (rewrite ?nadd_fin, ?nsub_fin, ?nmul_fin, ?nneg_fin, ?npowi_fin) | rewrite HDi | rewrite ndiv_fin by side | rewrite nlog_fin by side | rewrite natanh_fin by side ].
Ltac start H0 HX Hqa :=
  assert (HX : 0 < X) by (apply Rmult_lt_0_compat; lra); assert (Hqa : 0 < q * a) by (apply Rmult_lt_0_compat; lra).
Lemma value_A : 0 < x -> X < q * a ->
  iso_A Di (Fin x) (Fin q) (Fin a) = Fin (pref * (Jac X a (q * a) D (q * a) - Jac X a (q * a) D (- (q * a)))).
Proof.
  intros H0 H1. start H0 HX Hqa.
  assert (Sq : q ^ 2 * a ^ 2 - (1 + q) ^ 2 * x ^ 2 = (q * a - X) * (q * a + X)) by ring.
  assert (0 < (q * a - X) * (q * a + X)) by (apply Rmult_lt_0_compat; lra).
  pose proof (div_pos X (q * a) HX Hqa). pose proof (div_lt X (q * a) Hqa H1).
  unfold iso_A. rewrite pref_fin. nf. do 2 f_equal.
  rewrite Sq, ln_mult by lra.
  replace (1 + X / (q * a)) with ((q * a + X) / (q * a)) by (field; lra). replace (1 - X / (q * a)) with ((q * a - X) / (q * a)) by (field; lra).
  rewrite !ln_div by lra. unfold Jac, phi. rewrite la_opp.
  replace (- (q * a) - X) with (- (q * a + X)) by ring. rewrite la_opp. rewrite !la_pos by lra.
  rewrite (ln_mult q a) by lra. replace (- q * a / X) with (- (q * a) / X) by (unfold Rdiv; ring). field.
Qed.

Lemma value_B : 0 < x -> q * a < X ->
  iso_B Di (Fin x) (Fin q) (Fin a) = Fin (pref * (Jac X a (q * a) D (q * a) - Jac X a (q * a) D (- (q * a)))).
Proof.
  intros H0 H1. start H0 HX Hqa.
  assert (Sq : (1 + q) ^ 2 * x ^ 2 - q ^ 2 * a ^ 2 = (X - q * a) * (q * a + X)) by ring.
  assert (0 < (X - q * a) * (q * a + X)) by (apply Rmult_lt_0_compat; lra).
  pose proof (div_pos (q * a) X Hqa HX). pose proof (div_lt (q * a) X HX H1).
  unfold iso_B. rewrite pref_fin. nf. do 2 f_equal.
  rewrite Sq, ln_mult by lra.
  replace (1 + q * a / X) with ((q * a + X) / X) by (field; lra). replace (1 - q * a / X) with ((X - q * a) / X) by (field; lra).
  rewrite !ln_div by lra. unfold Jac, phi. rewrite la_opp.
  replace (- (q * a) - X) with (- (q * a + X)) by ring. replace (la (q * a - X)) with (la (X - q * a)) by (rewrite <- la_opp; f_equal; ring). rewrite la_opp. rewrite !la_pos by lra.
  rewrite (ln_mult q a) by lra. replace (- q * a / X) with (- (q * a) / X) by (unfold Rdiv; ring). field.
Qed.
Lemma value_C : 0 < x -> X < q * a -> 
  iso_C Di (Fin x) (Fin q) (Fin a) = Fin (pref * (Jac X a (q * a) D (q * a) - Jac X a (q * a) D (X - a))).
Proof.
  intros H0 H1. start H0 HX Hqa. assert (Hb : q * a <= a) by nra. assert (Hx : X < a) by lra.
  pose proof (div_pos (q * a) (a - X) Hqa ltac:(lra)). pose proof (div_pos a (q * a - X) Ha ltac:(lra)).
  pose proof (Rmult_lt_0_compat (a - X) (q * a - X) ltac:(lra) ltac:(lra)) as P1. pose proof (div_pos _ q P1 ltac:(lra)).
  unfold iso_C. rewrite pref_fin. nf. do 2 f_equal.
  rewrite !ln_div, (ln_mult (a - X)), (ln_mult q a) by lra.
  unfold Jac, phi. replace (X - a - X) with (- a) by ring. replace (la (X - a)) with (la (a - X)) by (rewrite <- la_opp; f_equal; ring). rewrite la_opp. rewrite !la_pos by lra.
  rewrite (ln_mult q a) by lra. replace ((X - a) / X) with (1 - a / X) by (field; lra). field.
Qed.
Lemma value_D : 0 < x -> q * a < X -> X < a -> 
  iso_D Di (Fin x) (Fin q) (Fin a) = Fin (pref * (Jac X a (q * a) D (q * a) - Jac X a (q * a) D (X - a))).
Proof.
  intros H0 H1 Hx. start H0 HX Hqa.
  pose proof (div_pos (q * a) (a - X) Hqa ltac:(lra)). pose proof (div_pos a (X - q * a) Ha ltac:(lra)).
  pose proof (div_pos a X Ha ltac:(lra)). pose proof (div_pos X a ltac:(lra) Ha). pose proof (div_pos (a - X) q ltac:(lra) ltac:(lra)).
  assert (P1 : 0 < (- q * a + X) * (a - X)) by (apply Rmult_lt_0_compat; lra). pose proof (div_pos _ q P1 ltac:(lra)).
  unfold iso_D. rewrite pref_fin. nf. do 2 f_equal.
  rewrite !ln_div, (ln_mult (- q * a + X)), (ln_mult q a) by lra. replace (- q * a + X) with (X - q * a) by ring.
  unfold Jac, phi. replace (X - a - X) with (- a) by ring. replace (la (X - a)) with (la (a - X)) by (rewrite <- la_opp; f_equal; ring).
  replace (la (q * a - X)) with (la (X - q * a)) by (rewrite <- la_opp; f_equal; ring). rewrite la_opp. rewrite !la_pos by lra.
  rewrite (ln_mult q a) by lra. replace ((X - a) / X) with (1 - a / X) by (field; lra). field.
Qed.
Lemma value_E : 0 < x -> a < X -> 
  iso_E Di (Fin x) (Fin q) (Fin a) = Fin (pref * (Jac X a (q * a) D (q * a) - Jac X a (q * a) D (X - a))).
Proof.
  intros H0 Hx. start H0 HX Hqa. assert (Hb : q * a <= a) by nra.
  pose proof (div_pos (q * a) (X - a) Hqa ltac:(lra)). pose proof (div_pos (X - q * a) a ltac:(lra) Ha). pose proof (div_pos q (X - a) ltac:(lra) ltac:(lra)).
  pose proof (div_pos (X - a) q ltac:(lra) ltac:(lra)).
  assert (P1 : 0 < (X - a) * (X - q * a)) by (apply Rmult_lt_0_compat; lra). pose proof (div_pos _ q P1 ltac:(lra)).
  unfold iso_E. rewrite pref_fin. nf. do 2 f_equal.
  rewrite !ln_div, (ln_mult (X - a)), (ln_mult q a) by lra.
  unfold Jac, phi. replace (X - a - X) with (- a) by ring.
  replace (la (q * a - X)) with (la (X - q * a)) by (rewrite <- la_opp; f_equal; ring). rewrite la_opp. rewrite !la_pos by lra.
  rewrite (ln_mult q a) by lra. replace ((X - a) / X) with (1 - a / X) by (field; lra). field.
Qed.
End Values.
