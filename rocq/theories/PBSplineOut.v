(** Values of the log-y splines out of range. *)
From Verif Require Export PBSplineLin SpecSpline.
Open Scope R_scope.

Lemma nonfinite_dead xs cs : length xs = length cs -> (exists c, In c xs /\ forall r, c <> Fin r) \/ (exists c, In c cs /\ forall r, c <> Fin r) ->
  fexp (log_fix (nsum (map2 nmul xs cs))) = Fin 0.
Proof.
  intros HL HC. assert (NF : forall r, nsum (map2 nmul xs cs) <> Fin r).
  { intros r HF. apply nsum_fin_inv in HF as [q HF]. apply map2_nmul_fin_inv in HF as (p & p' & HP & HP'); auto.
    destruct HC as [(c & HI & HN)|(c & HI & HN)]; [rewrite HP in HI|rewrite HP' in HI]; apply in_map_iff in HI as (z & Ez & _); eapply HN; eauto. }
  destruct (nsum _) as [r| | |]; [exfalso; eapply NF; reflexivity| | |]; cbn [log_fix fexp]; rewrite Rleb_t by lra; reflexivity.
Qed.

Lemma oob_entry s ks k a b i x : logy s = true -> valid_range s a b -> (x < a \/ b < x) -> (logx s = true -> 0 <= x) ->
  basis_value s ks k (Fin (coord s a)) (Fin (coord s b)) i (Fin x) = NInf.
Proof.
  intros HY [HAB HL] HX HP. unfold basis_value.
  assert (HO : forall u w, nlt u (Fin (coord s a)) = true \/ ngt u (Fin (coord s b)) = true -> oob_where (Fin (coord s a)) (Fin (coord s b)) u NInf w = NInf).
  { intros u w Hu. unfold oob_where. destruct Hu as [->| ->]; [|rewrite orb_true_r]; reflexivity. }
  unfold ngt in *. destruct s; try discriminate; cbn [logx] in *; unfold coord in *; cbn [logx] in *; apply HO; cbn [nlt].
  - destruct HX; [left|right]; apply Rltb_t; auto.
  - specialize (HL eq_refl). specialize (HP eq_refl). destruct (Req_dec x 0) as [->|NZ]; [left; rewrite nlog_zero; reflexivity|].
    rewrite nlog_fin by lra. cbn [nlt]. destruct HX; [left|right]; apply Rltb_t, ln_increasing; lra.
Qed.

(** C30, any knots, any coefficients, without normalisation *)
Lemma out_zero_any s n k kn0 int a b sp cs x : logy s = true -> valid_range s a b -> (1 <= n)%nat -> length cs = n ->
  make_spline s n k kn0 int (Fin a) (Fin b) false = Ok sp -> (x < a \/ b < x) -> (logx s = true -> 0 <= x) ->
  eval sp (Fin x :: nil) cs = Ok (Fin 0 :: nil).
Proof.
  intros HY HV Hn HC H HX HP. destruct (make_inv _ _ _ _ _ _ _ _ _ H) as (ks & lo & hi & grid & vols & LK & -> & _ & _ & EL & EH & _).
  assert (NK : s <> KBasis) by (intros ->; discriminate).
  unfold eval, bases. rewrite project_other by auto. rewrite norm_off by auto. cbn [sp_kind sp_knots sp_order sp_N sp_lo sp_hi].
  unfold project_raw. rewrite einsum_design by (auto; lia). cbn [rbind map]. rewrite HY. cbn [map].
  rewrite nonfinite_dead; [rewrite nmul_1_r; reflexivity|rewrite column_length; auto|left].
  exists NInf. split; [|discriminate]. unfold column. apply in_map_iff. exists 0%nat. split; [|apply in_seq; lia].
  destruct HV as [HAB HL]. subst lo hi. rewrite <- (oob_entry s ks k a b 0 x HY (conj HAB HL) HX HP).
  rewrite (coord_num s a), (coord_num s b); auto. intros E. specialize (HL E). lra.
Qed.

(** C30, any knots, with normalisation: zero as soon as the unnormalised integral is a non-zero number *)
Lemma out_zero_norm s n k kn0 int a b sp sp0 cs x gs vs : logy s = true -> valid_range s a b -> (1 <= n)%nat ->
  make_spline s n k kn0 int (Fin a) (Fin b) true = Ok sp -> make_spline s n k kn0 int (Fin a) (Fin b) false = Ok sp0 ->
  sp_grid sp = map Fin gs -> eval sp0 (map Fin gs) cs = Ok (map Fin vs) -> trapezoid gs vs <> 0 ->
  (x < a \/ b < x) -> (logx s = true -> 0 <= x) ->
  eval sp (Fin x :: nil) cs = Ok (Fin 0 :: nil).
Proof.
  intros HY HV Hn H1 H0 HG HE HT HX HP.
  destruct (Nat.eq_dec (length cs) n) as [HC|HC].
  - pose proof (out_zero_any s n k kn0 int a b sp0 cs x HY HV Hn HC H0 HX HP) as HZ.
    destruct (make_inv _ _ _ _ _ _ _ _ _ H1) as (ks & lo & hi & grid & vols & LK & -> & _ & _ & EL & EH & H0').
    destruct (H0' false) as (g' & v' & E0). rewrite H0 in E0. injection E0 as ->. cbn [sp_grid] in HG. subst grid.
    assert (NK : s <> KBasis) by (intros ->; discriminate).
    unfold eval, bases in *. rewrite project_other in HE, HZ |- * by auto. rewrite norm_off in HE, HZ by auto. rewrite norm_other by auto.
    cbn [sp_kind sp_knots sp_order sp_N sp_lo sp_hi sp_grid_bases sp_grid] in *.
    destruct (project_raw s (design s ks k n lo hi (map Fin gs)) cs) as [p|]; [|discriminate]. cbn [rbind] in *. rewrite map_mul_1 in HE. injection HE as ->.
    destruct (project_raw s (design s ks k n lo hi (Fin x :: nil)) cs) as [q|]; [|discriminate]. cbn [rbind] in *. rewrite map_mul_1 in HZ. injection HZ as ->.
    rewrite ntrapz_fin, ndiv_fin by auto. cbn [map]. rewrite nmul_fin, Rmult_0_l. reflexivity.
  - destruct (make_inv _ _ _ _ _ _ _ _ _ H0) as (ks & lo & hi & grid & vols & LK & -> & _). unfold eval, bases in HE.
    rewrite project_other in HE by (intros E; cbn [sp_kind] in E; rewrite E in HY; discriminate). cbn [sp_kind sp_knots sp_order sp_N sp_lo sp_hi] in HE. unfold project_raw in HE.
    rewrite einsum_bad in HE by auto. discriminate.
Qed.

(** C30 fails with normalisation as soon as one coefficient is not finite: the result is NaN everywhere *)
Lemma infinite_nan s n k kn0 int a b sp cs x : logy s = true -> valid_range s a b -> (1 <= n)%nat -> length cs = n ->
  (exists c, In c cs /\ forall r, c <> Fin r) -> make_spline s n k kn0 int (Fin a) (Fin b) true = Ok sp ->
  eval sp (x :: nil) cs = Ok (NaN :: nil).
Proof.
  intros HY HV Hn HC HI H. pose proof (grid_real _ _ _ _ _ _ _ _ H HV) as GR.
  destruct (make_inv _ _ _ _ _ _ _ _ _ H) as (ks & lo & hi & grid & vols & LK & -> & _). cbn [sp_grid] in GR. subst grid.
  assert (NK : s <> KBasis) by (intros ->; discriminate).
  unfold eval, bases. rewrite project_other by auto. rewrite norm_other by auto. cbn [sp_kind sp_knots sp_order sp_N sp_lo sp_hi sp_grid_bases sp_grid].
  unfold project_raw. rewrite !einsum_design by (auto; lia). cbn [rbind map]. rewrite HY. cbn [map rbind].
  assert (Z : forall y, fexp (log_fix (nsum (map2 nmul (column s ks k n lo hi y) cs))) = Fin 0).
  { intros y. apply nonfinite_dead; [rewrite column_length; auto|right; auto]. }
  rewrite Z. rewrite map_map. rewrite (map_ext _ (fun _ => Fin 0)) by apply Z.
  assert (E : forall l : list R, map (fun _ : num => Fin 0) (map Fin l) = map Fin (map (fun y => 0 * y) l)) by (intros l; rewrite !map_map; apply map_ext; intros; apply (f_equal Fin); ring).
  rewrite E, ntrapz_fin, trapezoid_scal, Rmult_0_l. cbn [ndiv]. rewrite Reqb_t by auto. unfold sinf. rewrite Rltb_t by lra. cbn [nmul].
  unfold sinf. rewrite !Rltb_f by lra. reflexivity.
Qed.

(** C30 fails for order 1 of LogXLogYBSpline at negative abscissae, whose logarithm is NaN *)
Lemma negative_order_one n a b sp cs x : (1 <= n)%nat -> valid_range KLogXLogY a b -> length cs = n -> x < 0 ->
  make_spline KLogXLogY n 1 None None (Fin a) (Fin b) false = Ok sp ->
  eval sp (Fin x :: nil) (map Fin cs) = Ok (Fin 1 :: nil).
Proof.
  intros Hn HV HC HX H. destruct (make_default KLogXLogY n 1 a b false ltac:(lia) HV) as (sp' & E & K1 & K2 & K3 & K4 & K5 & K6 & K7).
  rewrite H in E. injection E as <-. unfold eval, bases. rewrite project_other by (rewrite K1; discriminate). rewrite norm_off by auto. rewrite K1, K2, K3, K4, K5, K6.
  unfold project_raw. rewrite einsum_design by (rewrite ?map_length; auto). cbn [rbind map logy].
  assert (EC : column KLogXLogY (map Fin (uniform (coord KLogXLogY a) (coord KLogXLogY b) n 1)) 1 n (Fin (coord KLogXLogY a)) (Fin (coord KLogXLogY b)) (Fin x) = map Fin (map (fun _ => 0) (seq 0 n))).
  { unfold column. rewrite map_map. apply map_ext_in. intros i Hi. apply in_seq in Hi. unfold basis_value. cbn [logx].
    unfold nlog. rewrite Rltb_f, Reqb_f by lra. unfold oob_where, ngt. cbn [nlt orb]. unfold raw_basis.
    rewrite !kn_fin by (rewrite uniform_length; lia). rewrite nsub_fin. cbn [INR]. rewrite ndiv_fin by lra.
    cbn [basis]. unfold nge. cbn [nle]. rewrite !kn_fin by (rewrite uniform_length; lia). rewrite nsub_fin. cbn [nlt nle andb].
    destruct (Rltb _ _); rewrite nmul_fin, Rmult_0_r; reflexivity. }
  rewrite EC, map2_fin, nsum_fin. assert (Z : forall (l : list nat) c, Rlsum (map2 Rmult (map (fun _ => 0) l) c) = 0).
  { induction l as [|i l IH]; intros [|c0 c]; cbn; auto. rewrite IH. ring. }
  rewrite Z. cbn [log_fix fexp]. rewrite Rleb_f by (unfold FMAX; lra). rewrite exp_0, nmul_1_r. reflexivity.
Qed.
