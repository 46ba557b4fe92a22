(** The isotropic chi_eff prior (preprocess/priors.py:79-196) has total probability one. *)
From Coq Require Import Lia Lra.
From Verif Require Export PPriorsPush PPriorsPush2.
From Verif Require Export Spec SpecNewton.
Open Scope R_scope.

(** ** Sums, pieces and changes of variable *)
Lemma newton_plus f g a b I J : newton_integral f a b I -> newton_integral g a b J -> newton_integral (fun x => f x + g x) a b (I + J).
Proof.
  intros (F & S & Fc & Fd & ->) (G & T & Gc & Gd & ->). exists (fun x => F x + G x), (S ++ T)%list. split; [|split].
  - intros x Hx. apply cplus; auto.
  - intros x Hx Hn. apply (is_derive_plus F G); [apply Fd|apply Gd]; auto; intros Hi; apply Hn; apply in_or_app; auto.
  - ring.
Qed.
Lemma newton_chain f a b c I J : a <= b -> b <= c -> newton_integral f a b I -> newton_integral f b c J -> newton_integral f a c (I + J).
Proof.
  intros H1 H2 HI HJ.
  assert (L : newton_integral (fun x => if Rlt_dec x b then f x else 0) a c I).
  { apply (newton_clip f _ a b a c I); auto; try lra; intros x Hx; destruct (Rlt_dec x b); auto; lra. }
  assert (M : newton_integral (fun x => if Rlt_dec b x then f x else 0) a c J).
  { apply (newton_clip f _ b c a c J); auto; try lra; intros x Hx; destruct (Rlt_dec b x); auto; lra. }
  eapply (newton_ext_off _ f a c (I + J) (b :: nil)); [|apply (newton_plus _ _ _ _ _ _ L M)].
  intros x Hx Hn. cbn [In] in Hn. cbv beta. destruct (Rlt_dec x b), (Rlt_dec b x); try lra; exfalso; apply Hn; left; lra.
Qed.
Lemma newton_scale f k a b I : 0 < k -> newton_integral f (k * a) (k * b) I -> newton_integral (fun x => k * f (k * x)) a b I.
Proof.
  intros Hk (F & S & Fc & Fd & ->). exists (fun x => F (k * x)), (map (fun s => s / k) S). split; [|split]; auto.
  - intros x Hx. apply (continuous_comp (fun x => k * x) F); [apply cmult; [apply cconst|apply cid]|]. apply Fc. split; apply Rmult_le_compat_l; lra.
  - intros x Hx Hn. apply (is_derive_comp F (fun x => k * x) x (f (k * x)) k).
    + apply Fd; [split; apply Rmult_lt_compat_l; lra|]. intros Hi. apply Hn. apply in_map_iff. exists (k * x). split; auto. field. lra.
    + auto_derive; auto. ring.
Qed.
Lemma newton_const_mult f k a b I : newton_integral f a b I -> newton_integral (fun x => k * f x) a b (k * I).
Proof.
  intros (F & S & Fc & Fd & ->). exists (fun x => k * F x), S. split; [|split].
  - intros x Hx. apply cmult; [apply cconst|auto].
  - intros x Hx Hn. apply (is_derive_scal F x k (f x)). auto.
  - ring.
Qed.

(** ** Growth of the dilogarithm *)
Section Mass.
Variables (a b : R) (D : R -> R).
Hypothesis Hb : 0 < b.
Hypothesis Hba : b <= a.
Hypothesis HD : dilogarithm D.
Lemma D_slope y : 2 <= Rabs y -> Rabs (- ln (Rabs (1 - y)) / y) <= 1.
Proof.
  intros H. assert (Hy : y <> 0) by (intros ->; rewrite Rabs_R0 in H; lra).
  assert (P : 0 < Rabs y) by lra. assert (U : Rabs (1 - y) <= 1 + Rabs y) by (eapply Rle_trans; [apply Rabs_triang|rewrite Rabs_R1, Rabs_Ropp; lra]).
  assert (V : 1 <= Rabs (1 - y)) by (unfold Rabs in *; repeat destruct Rcase_abs; lra).
  unfold Rdiv. rewrite Rabs_mult, Rabs_Ropp, Rabs_inv. apply Rmult_le_reg_r with (Rabs y); auto. rewrite Rmult_assoc, Rinv_l by lra.
  assert (L0 : 0 <= ln (Rabs (1 - y))) by (rewrite <- ln_1; destruct V as [V|V]; [left; apply ln_increasing; lra|rewrite <- V; lra]).
  rewrite (Rabs_right (ln _)) by lra. assert (ln (Rabs (1 - y)) <= Rabs (1 - y) - 1).
  { pose proof (exp_ineq1_le (ln (Rabs (1 - y)))) as K. rewrite exp_ln in K by lra. lra. }
  lra.
Qed.
Lemma D_grow y : 2 <= Rabs y -> Rabs (D y) <= Rabs (D 2) + Rabs (D (-2)) + Rabs y.
Proof.
  intros H. destruct HD as (_ & Dc & Dd).
  assert (G : forall e, (e = 2 /\ 2 <= y) \/ (e = -2 /\ y <= -2) -> Rabs (D y - D e) <= Rabs y).
  { intros e He. destruct (MVT_gen D e y (fun t => - ln (Rabs (1 - t)) / t)) as (c & Hc & E).
    - intros t Ht. apply Dd; unfold Rmin, Rmax in Ht; destruct Rle_dec; lra.
    - intros t Ht. apply continuity_pt_filterlim. apply Dc.
    - rewrite E, Rabs_mult. assert (2 <= Rabs c) by (clear - He Hc; destruct He as [(-> & He)|(-> & He)]; unfold Rmin, Rmax, Rabs in *; repeat (destruct Rle_dec || destruct Rcase_abs); lra).
      apply Rle_trans with (1 * Rabs (y - e)); [apply Rmult_le_compat_r; [apply Rabs_pos|apply D_slope; auto]|]. clear - He. destruct He as [(-> & He)|(-> & He)]; unfold Rabs in *; repeat destruct Rcase_abs; lra. }
  destruct (Rle_dec 0 y) as [Hp|Hp].
  - specialize (G 2). rewrite (Rabs_right y) in * by lra. specialize (G ltac:(left; lra)). pose proof (Rabs_pos (D (-2))). pose proof (Rabs_triang (D y - D 2) (D 2)) as T. replace (D y - D 2 + D 2) with (D y) in T by ring. lra.
  - specialize (G (-2)). rewrite (Rabs_left y) in * by lra. specialize (G ltac:(right; lra)). pose proof (Rabs_pos (D 2)). pose proof (Rabs_triang (D y - D (-2)) (D (-2))) as T. replace (D y - D (-2) + D (-2)) with (D y) in T by ring. lra.
Qed.
Lemma sqD_cont c e x : c <> 0 -> continuous ((fun X => X * X * D (e + c / X)) : R -> R) x.
Proof.
  intros Hc. destruct (Req_dec x 0) as [->|Hx].
  2:{ apply cmult; [apply cmult; apply cid|]. apply (continuous_comp (fun X => e + c / X) D); [|apply HD].
      apply cplus; [apply cconst|]. apply cmult; [apply cconst|]. apply ex_derive_cont. auto_derive; auto. }
  set (C := Rabs (D 2) + Rabs (D (-2)) + Rabs e + 1). assert (HC : 1 <= C) by (unfold C; pose proof (Rabs_pos (D 2)); pose proof (Rabs_pos (D (-2))); pose proof (Rabs_pos e); lra).
  assert (Pc : 0 < Rabs c) by (apply Rabs_pos_lt; auto). pose proof (Rabs_pos e) as Pe.
  intros Q (eps & He). pose proof (cond_pos eps) as Peps.
  assert (Hd : 0 < Rmin (Rmin 1 (Rabs c / (2 + Rabs e))) (eps / (C + Rabs c))) by (repeat apply Rmin_glb_lt; try lra; apply div_pos; lra).
  exists (mkposreal _ Hd). intros y Hy. change R in (type of y). change (Rabs (y - 0) < Rmin (Rmin 1 (Rabs c / (2 + Rabs e))) (eps / (C + Rabs c))) in Hy. rewrite Rminus_0_r in Hy.
  apply He. change (Rabs (y * y * D (e + c / y) - 0 * 0 * D (e + c / 0)) < eps). replace (0 * 0 * D (e + c / 0)) with 0 by ring. rewrite Rminus_0_r.
  destruct (Req_dec y 0) as [->|Hy0]; [replace (0 * 0 * D (e + c / 0)) with 0 by ring; rewrite Rabs_R0; auto|].
  assert (Py : 0 < Rabs y) by (apply Rabs_pos_lt; auto).
  assert (Y1 : Rabs y < 1) by (eapply Rlt_le_trans; [exact Hy|eapply Rle_trans; [apply Rmin_l|apply Rmin_l]]).
  assert (Y2 : Rabs y < Rabs c / (2 + Rabs e)) by (eapply Rlt_le_trans; [exact Hy|eapply Rle_trans; [apply Rmin_l|apply Rmin_r]]).
  assert (Y3 : Rabs y < eps / (C + Rabs c)) by (eapply Rlt_le_trans; [exact Hy|apply Rmin_r]).
  assert (Z : 2 + Rabs e <= Rabs c / Rabs y).
  { apply Rmult_le_reg_r with (Rabs y); auto. replace (Rabs c / Rabs y * Rabs y) with (Rabs c) by (field; lra).
    apply (Rmult_lt_compat_r (2 + Rabs e)) in Y2; [|lra]. replace (Rabs c / (2 + Rabs e) * (2 + Rabs e)) with (Rabs c) in Y2 by (field; lra). lra. }
  assert (W : Rabs (c / y) = Rabs c / Rabs y) by (unfold Rdiv; rewrite Rabs_mult, Rabs_inv; auto).
  assert (G : 2 <= Rabs (e + c / y)) by (pose proof (Rabs_triang_inv (c / y) (- e)) as T; rewrite Rabs_Ropp in T; replace (c / y - - e) with (e + c / y) in T by ring; lra).
  apply D_grow in G. assert (G2 : Rabs (D (e + c / y)) <= C + Rabs c / Rabs y) by (pose proof (Rabs_triang e (c / y)); unfold C; lra).
  rewrite !Rabs_mult. apply Rle_lt_trans with (Rabs y * Rabs y * (C + Rabs c / Rabs y)); [apply Rmult_le_compat_l; auto; apply Rmult_le_pos; lra|].
  replace (Rabs y * Rabs y * (C + Rabs c / Rabs y)) with (Rabs y * (Rabs y * C + Rabs c)) by (field; lra).
  apply Rle_lt_trans with (Rabs y * (C + Rabs c)); [apply Rmult_le_compat_l; [lra|]; apply Rplus_le_compat_r; nra|].
  apply (Rmult_lt_compat_r (C + Rabs c)) in Y3; [|lra]. replace (eps / (C + Rabs c) * (C + Rabs c)) with (pos eps) in Y3 by (field; lra). auto.
Qed.

(** ** Second antiderivatives *)
Notation A := (ln a).
Notation B := (ln b).
Lemma copp (f : R -> R) x : continuous f x -> continuous ((fun t => - f t) : R -> R) x. Proof. apply @continuous_opp. Qed.
Ltac cd stop :=
  first [stop | lazymatch goal with
  | |- continuous (fun t => t) _ => apply cid
  | |- continuous (fun _ => ?c) _ => apply (cconst c)
  | |- continuous (fun t => @?f t - @?g t) _ => apply (cminus f g); cbv beta; cd stop
  | |- continuous (fun t => @?f t + @?g t) _ => apply (cplus f g); cbv beta; cd stop
  | |- continuous (fun t => @?f t * @?g t) _ => apply (cmult f g); cbv beta; cd stop
  | |- continuous (fun t => - @?f t) _ => apply (copp f); cbv beta; cd stop
  end].
Definition mm (c X : R) : R := (X - c) * la (X - c).
Definition MM (c X : R) : R := / 2 * (X - c) * mm c X - / 4 * (X - c) * (X - c).
Definition pp (X : R) : R := X * la X.
Definition HH (c X : R) : R :=
  (A * B * c - A * (c * la c - c) - c * la c + 2 * c) * X + B * MM c X + B * (c * X - / 2 * X * X)
  + la c * (- MM c X + / 2 * X * pp X - / 4 * X * X) + MM c X
  - (/ 2 * (X * X * D (c / X)) - / 2 * (/ 2 * (X + c) * mm c X - / 2 * c * X - / 2 * X * pp X)).
Definition GG (X : R) : R :=
  A * B * (/ 2 * X * X - a * X) - A * (MM a X - / 2 * X * X + a * X) - B * (a - a * A) * X
  + (- a * A * (mm a X - X) + a * A * X - MM a X + X * X - 2 * a * X)
  + (/ 2 * X * pp X - / 2 * a * pp a) * la (X - a) - / 2 * (X * X * D (1 + - a / X))
  - / 2 * (/ 2 * (X + a) * mm a X - / 4 * X * X - / 2 * a * X) - / 2 * (/ 2 * X * pp X - / 4 * X * X) - / 2 * a * A * X.
Lemma mm_derive c X : X <> c -> is_derive (mm c) X (la (X - c) + 1).
Proof.
  intros H. assert (N : X - c <> 0) by lra. pose proof (la_derive (X - c) N) as L1. unfold mm. auto_derive; [eexists; apply L1|].
  change (Derive (fun x : R => la x) (X + - c)) with (Derive la (X - c)). rewrite (is_derive_unique _ _ _ L1). change (la (X + - c)) with (la (X - c)). field. auto.
Qed.
Lemma MM_derive c X : X <> c -> is_derive (MM c) X (mm c X).
Proof.
  intros H. pose proof (mm_derive c X H) as L. unfold MM. auto_derive; [eexists; apply L|].
  change (Derive (fun x : R => mm c x) X) with (Derive (mm c) X). rewrite (is_derive_unique _ _ _ L). unfold mm. field.
Qed.
Lemma pp_derive X : X <> 0 -> is_derive pp X (la X + 1).
Proof.
  intros H. pose proof (la_derive X H) as L. unfold pp. auto_derive; [eexists; apply L|].
  change (Derive (fun x : R => la x) X) with (Derive la X). rewrite (is_derive_unique _ _ _ L). field. auto.
Qed.
Lemma mm_cont c X : continuous (mm c) X.
Proof. exact (phi_cont c X). Qed.
Lemma MM_cont c X : continuous (MM c) X.
Proof. unfold MM. pose proof (mm_cont c X) as K. cc ltac:(exact K). Qed.
Lemma pp_cont X : continuous pp X. Proof. apply tla_cont. Qed.
Lemma HH_cont c X : c <> 0 -> continuous (HH c) X.
Proof.
  intros Hc. unfold HH. pose proof (mm_cont c X) as K1. pose proof (MM_cont c X) as K2. pose proof (pp_cont X) as K3.
  pose proof (sqD_cont c 0 X Hc) as K4. assert (K5 : continuous ((fun X => X * X * D (c / X)) : R -> R) X).
  { apply (continuous_ext (fun X => X * X * D (0 + c / X))); auto. intros t. rewrite Rplus_0_l. auto. }
  cd ltac:(first [exact K1|exact K2|exact K3|exact K5]).
Qed.
Lemma Da_derive c e X : X <> 0 -> e + c / X <> 0 -> e + c / X <> 1 -> is_derive (fun X => D (e + c / X)) X (ln (Rabs (1 - (e + c / X))) / (e + c / X) * (c / (X * X))).
Proof.
  intros H0 H1 H2. destruct HD as (_ & _ & Dd).
  replace (ln (Rabs (1 - (e + c / X))) / (e + c / X) * (c / (X * X))) with ((- (c / (X * X))) * (- ln (Rabs (1 - (e + c / X))) / (e + c / X))) by (unfold Rdiv; ring).
  apply (is_derive_comp D (fun X => e + c / X) X (- ln (Rabs (1 - (e + c / X))) / (e + c / X)) (- (c / (X * X)))); [apply Dd; auto|].
  auto_derive; auto. field. auto.
Qed.
Lemma HH_derive c X : c <> 0 -> 0 < X -> X <> c -> is_derive (HH c) X (Jac X a b D c).
Proof.
  intros Hc HX HXc. pose proof (mm_derive c X HXc) as L1. pose proof (MM_derive c X HXc) as L2. pose proof (pp_derive X ltac:(lra)) as L3.
  assert (N1 : 0 + c / X <> 0) by (rewrite Rplus_0_l; apply Rmult_integral_contrapositive; split; auto; apply Rinv_neq_0_compat; lra).
  assert (N2 : 0 + c / X <> 1) by (rewrite Rplus_0_l; intros E; apply HXc; apply Rmult_eq_reg_r with (/ X); [|apply Rinv_neq_0_compat; lra]; rewrite Rinv_r by lra; unfold Rdiv in E; lra).
  pose proof (Da_derive c 0 X ltac:(lra) N1 N2) as L4.
  assert (E4 : ln (Rabs (1 - (0 + c / X))) / (0 + c / X) * (c / (X * X)) = (la (X - c) - la X) / X).
  { replace (1 - (0 + c / X)) with ((X - c) * / X) by (field; lra). rewrite Rabs_mult, Rabs_inv. assert (0 < Rabs X) by (apply Rabs_pos_lt; lra).
    rewrite ln_mult; [|apply Rabs_pos_lt; lra|apply Rinv_0_lt_compat; auto]. rewrite ln_Rinv by auto. unfold la. field. lra. }
  rewrite E4 in L4. set (Dt := fun X : R => D (0 + c / X)). change (is_derive Dt X ((la (X - c) - la X) / X)) in L4.
  apply (is_derive_ext (fun X => (A * B * c - A * (c * la c - c) - c * la c + 2 * c) * X + B * MM c X + B * (c * X - / 2 * X * X)
    + la c * (- MM c X + / 2 * X * pp X - / 4 * X * X) + MM c X - (/ 2 * (X * X * Dt X) - / 2 * (/ 2 * (X + c) * mm c X - / 2 * c * X - / 2 * X * pp X)))).
  { intros t. unfold HH, Dt. rewrite Rplus_0_l. reflexivity. }
  auto_derive; [repeat split; eexists; eassumption|].
  change (Derive (fun x : R => mm c x) X) with (Derive (mm c) X). change (Derive (fun x : R => MM c x) X) with (Derive (MM c) X). change (Derive (fun x : R => pp x) X) with (Derive pp X). change (Derive (fun x : R => Dt x) X) with (Derive Dt X).
  rewrite (is_derive_unique _ _ _ L1), (is_derive_unique _ _ _ L2), (is_derive_unique _ _ _ L3), (is_derive_unique _ _ _ L4).
  unfold Jac, phi, Dt, pp. rewrite Rplus_0_l. replace (la (c - X)) with (la (X - c)) by (rewrite <- la_opp; f_equal; ring). rewrite <- (la_pos X HX).
  unfold mm. field. lra.
Qed.
Lemma GG_cont X : 0 <= X -> continuous GG X.
Proof.
  intros HX. unfold GG. pose proof (mm_cont a X) as K1. pose proof (MM_cont a X) as K2. pose proof (pp_cont X) as K3.
  pose proof (sqD_cont (- a) 1 X ltac:(lra)) as K4.
  assert (K5 : continuous ((fun X => (/ 2 * X * pp X - / 2 * a * pp a) * la (X - a)) : R -> R) X).
  { destruct (Req_dec X a) as [->|Hne].
    - apply (ln_prod_cont (fun X => / 2 * X * pp X) a). pose proof (pp_derive a ltac:(lra)) as L. auto_derive. eexists; apply L.
    - assert (N : X - a <> 0) by lra.
      apply cmult; [cd ltac:(exact K3)|]. apply (continuous_comp (fun X => X - a) la); [apply cminus; [apply cid|apply cconst]|apply la_cont; auto]. }
  cd ltac:(first [exact K1|exact K2|exact K3|exact K4|exact K5]).
Qed.
Lemma GG_derive X : 0 < X -> X <> a -> is_derive GG X (Jac X a b D (X - a)).
Proof.
  intros HX HXa. pose proof (mm_derive a X HXa) as L1. pose proof (MM_derive a X HXa) as L2. pose proof (pp_derive X ltac:(lra)) as L3.
  assert (Ea : 1 + - a / X = (X - a) * / X) by (field; lra).
  assert (N1 : 1 + - a / X <> 0) by (rewrite Ea; apply Rmult_integral_contrapositive; split; [lra|apply Rinv_neq_0_compat; lra]).
  assert (N2 : 1 + - a / X <> 1).
  { intros E. assert (Q : - a / X = 0) by lra. apply Rmult_integral in Q. destruct Q as [Q|Q]; [lra|]. revert Q. apply Rinv_neq_0_compat. lra. }
  pose proof (Da_derive (- a) 1 X ltac:(lra) N1 N2) as L4.
  assert (E4 : ln (Rabs (1 - (1 + - a / X))) / (1 + - a / X) * (- a / (X * X)) = - (ln a - la X) * a / (X * (X - a))).
  { replace (1 - (1 + - a / X)) with (a * / X) by (field; lra). rewrite (Rabs_right (a * / X)) by (apply Rle_ge, Rmult_le_pos; [lra|left; apply Rinv_0_lt_compat; auto]).
    rewrite ln_mult; [|lra|apply Rinv_0_lt_compat; auto]. rewrite ln_Rinv by auto. rewrite la_pos by auto. field. lra. }
  rewrite E4 in L4. set (Dt := fun X : R => D (1 + - a / X)). change (is_derive Dt X (- (ln a - la X) * a / (X * (X - a)))) in L4.
  assert (N : X - a <> 0) by lra. pose proof (la_derive (X - a) N) as L5. set (ls := fun X : R => la (X - a)).
  assert (L6 : is_derive ls X (/ (X - a))).
  { unfold ls. replace (/ (X - a)) with (1 * / (X - a)) by ring. apply (is_derive_comp la (fun X => X - a) X (/ (X - a)) 1); auto. auto_derive; auto; ring. }
  change (is_derive (fun X => A * B * (/ 2 * X * X - a * X) - A * (MM a X - / 2 * X * X + a * X) - B * (a - a * A) * X
    + (- a * A * (mm a X - X) + a * A * X - MM a X + X * X - 2 * a * X)
    + (/ 2 * X * pp X - / 2 * a * pp a) * ls X - / 2 * (X * X * Dt X)
    - / 2 * (/ 2 * (X + a) * mm a X - / 4 * X * X - / 2 * a * X) - / 2 * (/ 2 * X * pp X - / 4 * X * X) - / 2 * a * A * X) X (Jac X a b D (X - a))).
  auto_derive; [repeat split; eexists; eassumption|].
  change (Derive (fun x : R => mm a x) X) with (Derive (mm a) X). change (Derive (fun x : R => MM a x) X) with (Derive (MM a) X). change (Derive (fun x : R => pp x) X) with (Derive pp X). change (Derive (fun x : R => Dt x) X) with (Derive Dt X). change (Derive (fun x : R => ls x) X) with (Derive ls X).
  rewrite (is_derive_unique _ _ _ L1), (is_derive_unique _ _ _ L2), (is_derive_unique _ _ _ L3), (is_derive_unique _ _ _ L4), (is_derive_unique _ _ _ L6).
  unfold Jac, phi, Dt, pp, ls, mm. replace (X - a - X) with (- a) by ring. rewrite la_opp, (la_pos a) by lra. rewrite <- (la_pos X HX).
  replace ((X - a) / X) with (1 + - a / X) by (field; lra). field. lra.
Qed.

(** the mass of the pieces *)
Lemma piece_one : newton_integral (fun X => Jac X a b D b - Jac X a b D (- b)) 0 (a - b) (HH b (a - b) - HH (- b) (a - b) - (HH b 0 - HH (- b) 0)).
Proof.
  exists (fun X => HH b X - HH (- b) X), (b :: nil). split; [|split]; auto.
  - intros x _. apply cminus; apply HH_cont; lra.
  - intros x Hx Hn. apply (is_derive_minus (HH b) (HH (- b))); apply HH_derive; try lra. intros ->. apply Hn. left; auto.
Qed.
Lemma piece_two : newton_integral (fun X => Jac X a b D b - Jac X a b D (X - a)) (a - b) (a + b) (HH b (a + b) - GG (a + b) - (HH b (a - b) - GG (a - b))).
Proof.
  exists (fun X => HH b X - GG X), (b :: a :: nil). split; [|split]; auto.
  - intros x Hx. apply cminus; [apply HH_cont; lra|apply GG_cont; lra].
  - intros x Hx Hn. cbn [In] in Hn. apply (is_derive_minus (HH b) GG); [apply HH_derive|apply GG_derive]; try lra; intros ->; apply Hn; auto.
Qed.
Lemma sum_pieces : (HH b (a - b) - HH (- b) (a - b) - (HH b 0 - HH (- b) 0)) + (HH b (a + b) - GG (a + b) - (HH b (a - b) - GG (a - b))) = 2 * a * b.
Proof.
  assert (E1 : (a + b) * (a + b) * D (b / (a + b)) = (a + b) * (a + b) * D (1 + - a / (a + b))) by (f_equal; f_equal; field; lra).
  assert (E2 : (a - b) * (a - b) * D (- b / (a - b)) = (a - b) * (a - b) * D (1 + - a / (a - b))).
  { destruct (Req_dec a b) as [E|E]; [replace (a - b) with 0 by lra; ring|]. f_equal. f_equal. field. lra. }
  unfold HH, GG. rewrite E1, E2. unfold MM, mm, pp.
  replace (0 - b) with (- b) by ring. replace (0 - - b) with b by ring. replace (a - b - - b) with a by ring. replace (a + b - b) with a by ring. replace (a + b - a) with b by ring. replace (a - b - a) with (- b) by ring.
  rewrite !la_opp. rewrite !(la_pos a), !(la_pos b) by lra. field.
Qed.
Definition window (X : R) : R := Jac X a b D b - Jac X a b D (X - Rmin a (X + b)).
Lemma window_mass : newton_integral window 0 (a + b) (2 * a * b).
Proof.
  rewrite <- sum_pieces. apply (newton_chain _ 0 (a - b) (a + b)); try lra.
  - eapply newton_ext; [|apply piece_one]. intros x Hx. cbv beta. unfold window. rewrite Rmin_right by lra. do 2 f_equal. ring.
  - eapply newton_ext; [|apply piece_two]. intros x Hx. cbv beta. unfold window. rewrite Rmin_left by lra. reflexivity.
Qed.
End Mass.

Lemma push_mass q a f : 0 < q <= 1 -> 0 < a -> (exists S, forall x, 0 < x < a -> ~ In x S -> newton_integral (push q a x) (- a) a (f x)) -> (exists D, dilogarithm D) -> newton_integral f 0 a (1 / 2).
Proof.
  intros Hq Ha (S & HS) (D & HD). assert (Hb : 0 < q * a) by (apply Rmult_lt_0_compat; lra). assert (Hba : q * a <= a) by nra.
  pose proof (window_mass a (q * a) D Hb Hba HD) as W. replace (a + q * a) with ((1 + q) * a) in W by ring. replace 0 with ((1 + q) * 0) in W at 1 by ring.
  apply newton_scale in W; [|lra]. apply (newton_const_mult _ (/ (4 * q * a * a))) in W. replace (/ (4 * q * a * a) * (2 * a * (q * a))) with (1 / 2) in W by (field; repeat split; lra).
  eapply (newton_ext_off _ f 0 a (1/2) S); [|exact W]. intros x Hx Hn. cbv beta.
  pose proof (push_window q a x D _ _ Hq Ha ltac:(lra) HD eq_refl eq_refl ltac:(lra)) as P. assert (Haa : - a <= a) by lra. rewrite (newton_unique _ _ _ _ _ Haa (HS x Hx Hn) P).
  unfold window, pref. replace ((1 + q) * x - ((1 + q) * x - q * a)) with (q * a) by ring. field. repeat split; lra.
Qed.
Lemma iso_mass q a D Di f : 0 < q <= 1 -> 0 < a -> dilogarithm D -> (forall y, Di (Fin y) = Fin (D y)) ->
  (forall x n, Rabs x <> a * (1 - q) / (1 + q) -> Rabs x <> q * a / (1 + q) -> Rabs x <> a / (1 + q) ->
     chi_effective_prior_from_isotropic_spins (S n) Di (Fin x) (Fin q) (Fin a) = Ok (Fin (f x))) ->
  newton_integral f (- a) a 1.
Proof.
  intros Hq Ha HD HDi Hf.
  set (T := a * (1 - q) / (1 + q) :: q * a / (1 + q) :: a / (1 + q) :: nil).
  assert (K : forall x, 0 < Rabs x -> ~ In (Rabs x) T -> newton_integral (push q a x) (- a) a (f x)).
  { intros x Hx Hn. cbn [In T] in Hn. assert (Hr : regular q a (Rabs x)) by (split; [|split]; intros E; apply Hn; rewrite E; auto).
    destruct (iso_pushforward q a D Di x O Hq Ha HD HDi (or_intror Hr)) as (v & E & N). destruct Hr as (R1 & R2 & R3). rewrite (Hf x O R1 R2 R3) in E. injection E as <-. auto. }
  assert (P : newton_integral f 0 a (1/2)).
  { apply (push_mass q a f Hq Ha); [|eauto]. exists T. intros x Hx Hn. apply K; rewrite Rabs_right by lra; auto; lra. }
  assert (M : newton_integral (fun x => f (- x)) 0 a (1/2)).
  { apply (push_mass q a _ Hq Ha); [|eauto]. exists T. intros x Hx Hn. assert (Hm : Rabs (- x) = x) by (rewrite Rabs_Ropp, Rabs_right; lra).
    pose proof (K (- x) ltac:(lra) ltac:(rewrite Hm; auto)) as N. apply newton_flip in N. rewrite Ropp_involutive in N. eapply newton_ext; [|exact N].
    intros s _. unfold push. replace (((1 + q) * - x - - s) / q) with (- (((1 + q) * x - s) / q)) by (field; lra). rewrite !iso_spin_even. reflexivity. }
  apply newton_flip in M. rewrite Ropp_0 in M. replace 1 with (1 / 2 + 1 / 2) by lra. apply (newton_chain f (- a) 0 a); try lra; auto.
  eapply newton_ext; [|exact M]. intros x _. cbv beta. rewrite Ropp_involutive. reflexivity.
Qed.
Lemma iso_mass_one q a D Di : 0 < q <= 1 -> 0 < a -> dilogarithm D -> (forall y, Di (Fin y) = Fin (D y)) ->
  exists f, (forall x n, Rabs x <> a * (1 - q) / (1 + q) -> Rabs x <> q * a / (1 + q) -> Rabs x <> a / (1 + q) ->
     chi_effective_prior_from_isotropic_spins (S n) Di (Fin x) (Fin q) (Fin a) = Ok (Fin (f x))) /\ newton_integral f (- a) a 1.
Proof.
  intros Hq Ha HD HDi. set (f := fun x => match chi_effective_prior_from_isotropic_spins 1 Di (Fin x) (Fin q) (Fin a) with Ok (Fin v) => v | _ => 0 end).
  assert (E : forall x n, Rabs x <> a * (1 - q) / (1 + q) -> Rabs x <> q * a / (1 + q) -> Rabs x <> a / (1 + q) ->
     chi_effective_prior_from_isotropic_spins (S n) Di (Fin x) (Fin q) (Fin a) = Ok (Fin (f x))).
  { intros x n R1 R2 R3. destruct (select_value q a D Di (Rabs x) Hq Ha HD HDi (Rabs_pos x) (or_intror (conj R1 (conj R2 R3)))) as (v & Ev & _).
    unfold f. cbn [chi_effective_prior_from_isotropic_spins]. rewrite nabs_fin, Ev. reflexivity. }
  exists f. split; [exact E|]. exact (iso_mass q a D Di f Hq Ha HD HDi E).
Qed.
