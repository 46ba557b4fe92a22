(** Gauge freedom of the linear splines, and the exceptions to exact zeros out of range. *)
From Verif Require Export PBSplineGauge SpecSpline.
Open Scope R_scope.

(** ** multiplying by a non-zero number distributes over float sums *)
Lemma sinf_mul_pos l a : 0 < l -> sinf (l * a) = sinf a.
Proof.
  intros H. unfold sinf. destruct (Rlt_dec 0 a) as [P|P]; [rewrite !Rltb_t by nra; auto|rewrite (Rltb_f 0 a), (Rltb_f 0 (l * a)) by nra].
  destruct (Rlt_dec a 0); [rewrite !Rltb_t by nra|rewrite !Rltb_f by nra]; auto.
Qed.
Lemma sinf_mul_neg l a : l < 0 -> sinf (l * a) = nneg (sinf a).
Proof.
  intros H. unfold sinf. destruct (Rlt_dec 0 a) as [P|P].
  - rewrite (Rltb_t 0 a), (Rltb_f 0 (l * a)), Rltb_t by nra; auto.
  - rewrite (Rltb_f 0 a) by lra. destruct (Rlt_dec a 0); [rewrite (Rltb_t 0), Rltb_t by nra|rewrite !Rltb_f by nra]; auto.
Qed.
Lemma nmul_inf l : l <> 0 -> (0 < l /\ sinf l = PInf) \/ (l < 0 /\ sinf l = NInf).
Proof.
  intros H. unfold sinf. destruct (Rlt_dec 0 l); [left; rewrite Rltb_t by auto; auto|right]. rewrite Rltb_f, Rltb_t by lra. split; auto; lra.
Qed.
Lemma nmul_distr l x y : l <> 0 -> nmul (Fin l) (nadd x y) = nadd (nmul (Fin l) x) (nmul (Fin l) y).
Proof.
  intros H. destruct (nmul_inf l H) as [[P E]|[P E]]; destruct x, y; cbn; rewrite ?E; cbn; auto; apply (f_equal Fin); ring.
Qed.
Lemma nmul_swap l x c : l <> 0 -> nmul x (nmul (Fin l) c) = nmul (Fin l) (nmul x c).
Proof.
  intros H. destruct (nmul_inf l H) as [[P E]|[P E]]; destruct x as [x| | |], c as [c| | |]; cbn; rewrite ?E; cbn; auto;
  try (apply (f_equal Fin); ring); rewrite ?sinf_mul_pos, ?sinf_mul_neg by auto; unfold sinf; repeat destruct (Rltb _ _); cbn; rewrite ?E; auto.
Qed.
Lemma nsum_distr l xs : l <> 0 -> nsum (map (nmul (Fin l)) xs) = nmul (Fin l) (nsum xs).
Proof.
  intros H. induction xs as [|x xs IH]; [cbn; apply (f_equal Fin); ring|]. cbn [map]. cbn [nsum]. rewrite IH, nmul_distr; auto.
Qed.
Lemma map2_swap l xs cs : l <> 0 -> map2 nmul xs (map (nmul (Fin l)) cs) = map (nmul (Fin l)) (map2 nmul xs cs).
Proof. intros H. revert cs. induction xs as [|x xs IH]; intros [|c cs]; cbn [map2 map]; auto. rewrite IH, nmul_swap; auto. Qed.

Lemma nmul_unscale l I v : l <> 0 -> I <> 0 -> nmul (nmul (Fin l) v) (ndiv (Fin 1) (Fin (l * I))) = nmul v (ndiv (Fin 1) (Fin I)).
Proof.
  intros H HI. assert (l * I <> 0) by (apply Rmult_integral_contrapositive; auto). rewrite !ndiv_fin by auto.
  assert (EI : 1 / (l * I) = / l * (1 / I)) by (field; auto). rewrite EI.
  assert (NI : 1 / I <> 0) by (unfold Rdiv; rewrite Rmult_1_l; apply Rinv_neq_0_compat; auto). generalize dependent (1 / I). intros J _ NJ.
  destruct (nmul_inf l H) as [[P E]|[P E]]; destruct v as [v| | |]; cbn; rewrite ?E; cbn; auto;
  try (apply (f_equal Fin); field; auto); first [pose proof (Rinv_0_lt_compat _ P)|pose proof (Rinv_lt_0_compat _ P)];
  rewrite ?sinf_mul_pos, ?sinf_mul_neg by auto; unfold sinf; repeat destruct (Rltb _ _); auto.
Qed.

(** C29, BSpline and LogXBSpline, any knots: only needs the unnormalised integral to be a non-zero number *)
Lemma linear_gauge s n k kn0 int a b sp sp0 cs gs vs l :
  logy s = false -> s <> KBasis -> (1 <= n)%nat ->
  make_spline s n k kn0 int a b true = Ok sp -> make_spline s n k kn0 int a b false = Ok sp0 ->
  sp_grid sp = map Fin gs -> eval sp0 (map Fin gs) cs = Ok (map Fin vs) -> trapezoid gs vs <> 0 -> l <> 0 ->
  forall xs, eval sp xs (map (nmul (Fin l)) cs) = eval sp xs cs.
Proof.
  intros HY NK Hn H1 H0 HG HE HT HL xs. destruct (make_inv _ _ _ _ _ _ _ _ _ H1) as (ks & lo & hi & grid & vols & LK & -> & EG & EV & _ & _ & H0').
  destruct (H0' false) as (g' & v' & E0). rewrite H0 in E0. injection E0 as ->. cbn [sp_grid] in HG. subst grid. cbv iota in *.
  unfold eval, bases in *. cbn [sp_kind sp_knots sp_order sp_N sp_lo sp_hi sp_grid_bases] in *.
  rewrite project_other in HE |- * by auto. rewrite (project_other (Spline s n k lo hi ks true _ _ _)) by auto. cbn [sp_kind] in *.
  rewrite !norm_other by auto. cbn [sp_kind sp_grid_bases sp_grid].
  destruct (Nat.eq_dec (length cs) n) as [LC|LC].
  2:{ unfold project_raw in HE. rewrite einsum_bad in HE by auto. discriminate. }
  unfold project_raw in *. rewrite HY in *. rewrite !einsum_design in * by (rewrite ?map_length; auto). cbn [rbind] in *.
  rewrite norm_off in HE by auto. cbn [rbind] in HE. rewrite map_mul_1 in HE. injection HE as HE.
  assert (SC : forall zs, map (fun x => nsum (map2 nmul (column s ks k n lo hi x) (map (nmul (Fin l)) cs))) zs =
    map (nmul (Fin l)) (map (fun x => nsum (map2 nmul (column s ks k n lo hi x) cs)) zs)).
  { intros zs. rewrite map_map. apply map_ext. intros x. rewrite map2_swap, nsum_distr; auto. }
  rewrite !SC, HE. apply (f_equal Ok). rewrite map_map.
  assert (ES : map (nmul (Fin l)) (map Fin vs) = map Fin (map (fun v => l * v) vs)) by (rewrite !map_map; reflexivity).
  rewrite ES, !ntrapz_fin, trapezoid_scal. apply map_ext. intros v. apply nmul_unscale; auto.
Qed.

(** C29, BasisSpline: the coefficients are divided by their sum first, so the scale never matters *)
Lemma basis_gauge sp cs l : sp_kind sp = KBasis -> Rlsum cs <> 0 -> l <> 0 ->
  forall xs, eval sp xs (map Fin (map (fun c => l * c) cs)) = eval sp xs (map Fin cs).
Proof.
  intros HK HS HL xs. unfold eval, project. rewrite HK. rewrite !nsum_fin.
  assert (E : Rlsum (map (fun c => l * c) cs) = l * Rlsum cs).
  { clear. induction cs as [|c cs IH]; cbn; [ring|]. rewrite IH. ring. }
  assert (EM : map (fun c => ndiv c (Fin (Rlsum (map (fun c0 => l * c0) cs)))) (map Fin (map (fun c => l * c) cs)) = map (fun c => ndiv c (Fin (Rlsum cs))) (map Fin cs)).
  { rewrite E, !map_map. apply map_ext. intros c. rewrite !ndiv_fin by (first [assumption|apply Rmult_integral_contrapositive; auto]). apply (f_equal Fin). field. auto. }
  rewrite EM. reflexivity.
Qed.
