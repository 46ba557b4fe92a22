(** The values of the spline-modulated densities. *)
From Verif Require Export PSplinePert2 SpecCurve.
From Verif Require Export Spec.
Open Scope R_scope.

Lemma Bspline_ext t t' k : forall i x, (forall j, (i <= j <= i + k)%nat -> t j = t' j) -> Bspline t k i x = Bspline t' k i x.
Proof.
  induction k as [|k IH]; intros i x H; [reflexivity|]. destruct k as [|k].
  - cbn [Bspline]. rewrite !H by lia. reflexivity.
  - cbn [Bspline] in *. rewrite (IH i x) by (intros; apply H; lia). rewrite (IH (i + 1)%nat x) by (intros; apply H; lia). rewrite !H by lia. reflexivity.
Qed.

Lemma lin_curve s k n lo hi cs x : s = KB \/ s = KLogX -> (1 <= k <= n)%nat -> length cs = n -> (logx s = true -> 0 < x) -> lo < hi ->
  1 / 10 ^ 6 <= (hi - lo) / INR (n + 1 - k) ->
  lin s (uniform lo hi n k) k n lo hi cs x = curve lo hi n k cs (coord s x).
Proof.
  intros Hs Hk HC Hx HL HW. assert (LT : length (uniform lo hi n k) = (n + k)%nat) by apply uniform_length. unfold curve.
  destruct (Rleb lo (coord s x)) eqn:E1; [destruct (Rleb (coord s x) hi) eqn:E2|]; cbn [andb].
  - apply Rleb_true in E1, E2. apply Fin_inj. rewrite <- lin_fin by (auto; lia).
    assert (CL : column s (map Fin (uniform lo hi n k)) k n (Fin lo) (Fin hi) (Fin x) = map Fin (map (fun i => Bspline (uniform_knot lo hi n k) k i (coord s x)) (seq 0 n))).
    { unfold column. rewrite map_map. apply map_ext_in. intros i Hi. apply in_seq in Hi.
      rewrite (basis_value_in s (uniform lo hi n k) k lo hi i x).
      - apply (f_equal Fin). fold (coord s x). apply Bspline_ext. intros j Hj. rewrite uniform_nth by lia. reflexivity.
      - apply uniform_spaced; auto; lia.
      - destruct Hs as [->| ->]; discriminate.
      - lia.
      - rewrite LT. lia.
      - unfold coord in E1, E2. destruct (logx s); auto. }
    rewrite CL, map2_fin, nsum_fin. apply (f_equal Fin). clear -HC. subst n.
    assert (G : forall (g : nat -> R) cs a, Rlsum (map2 Rmult (map g (seq a (length cs))) cs) = Rlsum (map (fun i => nth (i - a) cs 0 * g i) (seq a (length cs)))).
    { intros g. induction cs0 as [|c l IH]; intros a; [reflexivity|]. cbn [length seq map map2 Rlsum]. rewrite Nat.sub_diag. cbn [nth]. rewrite IH. rewrite (Rmult_comm c). f_equal.
      f_equal. apply map_ext_in. intros i Hi. apply in_seq in Hi. replace (i - a)%nat with (S (i - S a)) by lia. reflexivity. }
    rewrite G. f_equal. apply map_ext. intros i. rewrite Nat.sub_0_r. reflexivity.
  - apply Rleb_false in E2. apply lin_out; auto; lia.
  - apply Rleb_false in E1. apply lin_out; auto; lia.
Qed.

Lemma redshift_value dVcdz v s deg n lo hi p0 pe i0 inj dVdc dVdc_inj m cs sel :
  s = KB \/ s = KLogX -> (deg + 1 <= n)%nat -> valid_range s lo hi -> wide_range s n (deg + 1) lo hi -> good_redshifts s dVcdz v p0 pe i0 inj ->
  dVdc = map dVcdz (map Fin (p0 :: pe)) -> dVdc_inj = map dVcdz (map Fin (i0 :: inj)) ->
  make_redshift dVcdz (Fin hi) (Opts (Some s) (Some (Fin lo, Fin hi)) (Some deg) None None (Some false)) n (Fin p0) (map Fin pe) (Fin i0) (map Fin inj) dVdc dVdc_inj = Ok m ->
  length cs = n ->
  let grid := rlinspace (grid_lo p0 pe i0 inj) (grid_hi p0 pe i0 inj) 1000 in
  let g z := v z / (1 + z) * exp (curve (coord s lo) (coord s hi) n (deg + 1) cs (coord s z)) in
  redshift_rate m (map Fin cs) sel = Ok (map Fin (map (scaled_on grid g) (all_samples p0 pe i0 inj sel))).
Proof.
  intros Hs Hn HR HW (G1 & G2 & G3 & G4 & G5 & G6) D1 D2 HM HC grid g.
  destruct (redshift_unnormalised dVcdz v s deg n lo hi p0 pe i0 inj dVdc dVdc_inj Hs Hn HR G1 G2 G3 G4 G5 (G6 _ (conj (proj2 G1) (Rle_refl _))) (conj D1 D2) m cs sel HM HC) as (rate & E & _ & _ & RV).
  rewrite E. apply (f_equal (fun l => Ok (map Fin l))). fold grid in RV.
  assert (LC : forall z, (logx s = true -> 0 < z) -> lin s (uniform (coord s lo) (coord s hi) n (deg + 1)) (deg + 1) n (coord s lo) (coord s hi) cs z = curve (coord s lo) (coord s hi) n (deg + 1) cs (coord s z)).
  { intros z HZ. apply lin_curve; auto; try lia; apply coord_lt; auto. }
  assert (T : forall h, (forall z, In z grid -> h z = g z) -> trapezoid grid (map h grid) = trapezoid grid (map g grid)).
  { intros h Hh. f_equal. apply map_ext_in. auto. }
  apply map_ext_in. intros z HZ. rewrite RV. unfold scaled_on. rewrite T.
  - rewrite LC; [unfold g; f_equal; unfold Rdiv; ring|]. intros L. destruct (G2 L) as (_ & F1 & F2). rewrite Forall_forall in F1, F2. destruct sel; cbn [all_samples] in HZ; auto.
  - intros y HY. unfold g. rewrite LC; [reflexivity|]. intros L. destruct (G2 L) as (A & _). apply rlinspace_range in HY; lra.
Qed.

Lemma plz_value dVcdz v s n p0 pe i0 inj m lamb cs sel : s = KB \/ s = KLogX -> (4 <= n)%nat -> good_redshifts s dVcdz v p0 pe i0 inj ->
  let a := grid_lo p0 pe i0 inj in let b := grid_hi p0 pe i0 inj in wide_range s n 4 a b ->
  make_plz_model dVcdz s n (Fin p0) (map Fin pe) (Fin i0) (map Fin inj) = Ok m -> length cs = n ->
  let g z := v z * Rpower (1 + z) (lamb - 1) * exp (curve (coord s a) (coord s b) n 4 cs (coord s z)) in
  plz_model_call m (map Fin (all_samples p0 pe i0 inj sel)) sel (Fin lamb) (map Fin cs) =
    Ok (map Fin (map (fun z => if Rleb z b then scaled_on (rlinspace a b 1000) g z else 0) (all_samples p0 pe i0 inj sel))).
Proof.
  intros Hs Hn (G1 & G2 & G3 & G4 & G5 & G6) a b HW HM HC g. fold a b in G1, G2, G5, G6.
  destruct (plz_call dVcdz v s n p0 pe i0 inj Hs Hn G1 G2 G3 G4 G5 G6 m lamb cs sel HM HC) as (rate & E & _ & _ & _ & RV).
  rewrite E. apply (f_equal (fun l => Ok (map Fin l))). fold a b in RV |- *. set (grid := rlinspace a b 1000) in *.
  assert (VR : valid_range s a b) by (split; [lra|intros L; apply G2; auto]).
  assert (LC : forall z, (logx s = true -> 0 < z) -> lin s (uniform (coord s a) (coord s b) n 4) 4 n (coord s a) (coord s b) cs z = curve (coord s a) (coord s b) n 4 cs (coord s z)).
  { intros z HZ. apply lin_curve; auto; try lia; apply coord_lt; auto. }
  assert (T : forall h, (forall z, In z grid -> h z = g z) -> trapezoid grid (map h grid) = trapezoid grid (map g grid)).
  { intros h Hh. f_equal. apply map_ext_in. auto. }
  apply map_ext_in. intros z HZ. destruct (Rleb z b); auto. rewrite RV. unfold scaled_on. rewrite T.
  - rewrite LC; [reflexivity|]. intros L. destruct (G2 L) as (_ & F1 & F2). rewrite Forall_forall in F1, F2. destruct sel; cbn [all_samples] in HZ; auto.
  - intros y HY. unfold g. rewrite LC; [reflexivity|]. intros L. destruct (G2 L) as (A & _). apply rlinspace_range in HY; lra.
Qed.

Lemma hand_uniform lo hi n ts is : (4 <= n)%nat -> hand_knots (Fin lo) (Fin hi) n 4 = Ok (map Fin ts, map Fin is) -> ts = uniform lo hi n 4.
Proof.
  intros Hn H. unfold hand_knots in H. assert ((Z.of_nat n - Z.of_nat 4 + 2 <? 0)%Z = false) as E by (apply Z.ltb_ge; lia). rewrite E in H. clear E.
  rewrite nlinspace_fin in H by lia. pose proof (rlinspace_length lo hi (n + 2 - 4)) as LL.
  assert (NTH : forall j, (j < n + 2 - 4)%nat -> nth j (rlinspace lo hi (n + 2 - 4)) 0 = lo + INR j * ((hi - lo) / INR (n + 1 - 4))).
  { intros j Hj. rewrite rlinspace_nth by auto. replace (n + 2 - 4 - 1)%nat with (n + 1 - 4)%nat by lia. auto. }
  destruct (rlinspace lo hi (n + 2 - 4)) as [|x [|y l]] eqn:E; [cbn in LL; lia|cbn in LL; lia|].
  pose proof (NTH O ltac:(lia)) as N0. pose proof (NTH 1%nat ltac:(lia)) as N1. cbn [nth INR] in N0, N1.
  cbn [map] in H. rewrite nsub_fin in H. change (seq 1 (4 - 1)) with [1; 2; 3]%nat in H. cbn [rev app map] in H. rewrite !nmul_fin, !nsub_fin, !nadd_fin in H.
  apply Ok_inj in H. apply (f_equal fst) in H. cbn [fst] in H.
  assert (DX : y - x = (hi - lo) / INR (n + 1 - 4)) by lra.
  assert (NZ : INR (n + 1 - 4) <> 0) by (apply not_0_INR; lia).
  assert (E2 : map Fin ts = map Fin ([lo - (y - x) * INR 3; lo - (y - x) * INR 2; lo - (y - x) * INR 1] ++ (x :: y :: l) ++ [hi + (y - x) * INR 1; hi + (y - x) * INR 2; hi + (y - x) * INR 3])).
  { rewrite <- H. rewrite !map_app. reflexivity. }
  assert (INJ : forall (u w : list R), map Fin u = map Fin w -> u = w).
  { induction u as [|p u IH]; intros [|q w] HH; try discriminate; auto. cbn in HH. injection HH as -> HH. f_equal. auto. }
  apply INJ in E2. rewrite E2. apply (nth_ext _ _ 0 0).
  - rewrite uniform_length, !app_length, LL. cbn [length]. lia.
  - intros j Hj. rewrite !app_length, LL in Hj. cbn [length] in Hj. rewrite uniform_nth by lia. rewrite DX. change (4 - 1)%nat with 3%nat.
    destruct j as [|[|[|j]]]; [cbn [app nth]; cbn [INR]; ring ..|]. rewrite app_nth2 by (cbn [length]; lia). cbn [length]. replace (S (S (S j)) - 3)%nat with j by lia.
    destruct (lt_dec j (n + 2 - 4)) as [L|L].
    + rewrite app_nth1 by lia. rewrite NTH by auto. rewrite !S_INR. cbn [INR]. ring.
    + rewrite app_nth2 by lia. rewrite LL.
      assert (HI : hi = lo + INR (n + 1 - 4) * ((hi - lo) / INR (n + 1 - 4))) by (field; auto).
      assert (J : (j = n + 2 - 4 \/ j = n + 3 - 4 \/ j = n + 4 - 4)%nat) by lia.
      assert (K : INR (n + 1 - 4) = INR n - 3). { replace (n + 1 - 4)%nat with (n - 3)%nat by lia. rewrite minus_INR by lia. cbn [INR]. ring. }
      assert (HD : forall q, hi + (hi - lo) / INR (n + 1 - 4) * q = lo + (INR (n + 1 - 4) + q) * ((hi - lo) / INR (n + 1 - 4))) by (intros; rewrite HI at 1; ring).
      destruct J as [->|[->| ->]].
      * replace (n + 2 - 4 - (n + 2 - 4))%nat with O by lia. cbn [nth]. rewrite HD. f_equal. f_equal. rewrite K. replace (S (S (S (n + 2 - 4)))) with (n + 1)%nat by lia. rewrite plus_INR. cbn [INR]. ring.
      * replace (n + 3 - 4 - (n + 2 - 4))%nat with 1%nat by lia. cbn [nth]. rewrite HD. f_equal. f_equal. rewrite K. replace (S (S (S (n + 3 - 4)))) with (n + 2)%nat by lia. rewrite plus_INR. cbn [INR]. ring.
      * replace (n + 4 - 4 - (n + 2 - 4))%nat with 2%nat by lia. cbn [nth]. rewrite HD. f_equal. f_equal. rewrite K. replace (S (S (S (n + 4 - 4)))) with (n + 3)%nat by lia. rewrite plus_INR. cbn [INR]. ring.
Qed.

Lemma plsp_value n m1pe m1inj mmin m2min mmax d alpha lo hi cs sel : (4 <= n)%nat -> 0 < mmin < mmax -> wide_range KLogX n 4 mmin mmax ->
  Forall (fun m => 0 < m) m1pe -> Forall (fun m => 0 < m) m1inj ->
  make_plsp KB false n (map Fin m1pe) (map Fin m1inj) (Fin mmin) m2min (Fin mmax) 4 = Ok d -> length cs = n -> 0 < lo < hi -> 
  (exists m, In m (rlinspace mmin mmax 1000) /\ lo <= m <= hi) ->
  let g m := if (Rleb lo m && Rleb m hi)%bool then Rpower m (- alpha) * exp (curve (ln mmin) (ln mmax) n 4 cs (ln m)) else 0 in
  plsp_p_m1 d (map Fin (m1_samples m1pe m1inj sel)) sel (Fin alpha) (Fin lo) (Fin hi) (map Fin cs) =
    Ok (map Fin (map (scaled_on (rlinspace mmin mmax 1000) g) (m1_samples m1pe m1inj sel))).
Proof.
  intros Hn HM HW P1 P2 HD HC HL HG g.
  destruct (plsp_unit n m1pe m1inj mmin m2min mmax d alpha lo hi cs sel Hn HM P1 P2 HD HC HL HG) as (p & E & _ & _ & _ & ts & is & EK & LT & PV).
  rewrite E. apply (f_equal (fun l => Ok (map Fin l))). apply hand_uniform in EK; auto. subst ts. set (grid := rlinspace mmin mmax 1000) in *. cbv zeta in PV.
  set (f := fun m => toR (powerlaw_pdf (Fin m) (Fin (- alpha)) (Fin lo) (Fin hi) (Fin 0)) * exp (lin KB (uniform (ln mmin) (ln mmax) n 4) 4 n (ln mmin) (ln mmax) cs (ln m))) in PV.
  set (c := plnorm (- alpha) lo hi). assert (CP : 0 < c) by (apply plnorm_pos; auto).
  assert (F : forall m, f m = c * g m).
  { intros m. unfold f, g. rewrite (lin_curve KB 4 n) by (auto; try lia; try discriminate; apply ln_increasing; lra). unfold coord. cbn [logx].
    destruct (Rleb lo m) eqn:E1; [destruct (Rleb m hi) eqn:E2|]; cbn [andb].
    - apply Rleb_true in E1, E2. rewrite powerlaw_pdf_in by lra. cbn [toR]. fold c. ring.
    - apply Rleb_false in E2. rewrite powerlaw_pdf_out by (right; apply Rltb_t; auto). cbn [toR]. ring.
    - apply Rleb_false in E1. rewrite powerlaw_pdf_out by (left; apply Rltb_t; auto). cbn [toR]. ring. }
  assert (T : trapezoid grid (map f grid) = c * trapezoid grid (map g grid)).
  { rewrite <- trapezoid_scal, map_map. f_equal. apply map_ext. exact F. }
  assert (TP : 0 < trapezoid grid (map g grid)).
  { destruct HG as (z & Hz & Hzr). apply grid_pos; [apply two_thousand|lra| |].
    - intros y _. unfold g. destruct (_ && _)%bool; [|lra]. left. apply Rmult_lt_0_compat; [apply Rpower_pos|apply exp_pos].
    - exists z. split; auto. unfold g. rewrite !Rleb_t by lra. cbn [andb]. apply Rmult_lt_0_compat; [apply Rpower_pos|apply exp_pos]. }
  apply map_ext. intros m. rewrite PV, T, F. unfold scaled_on. field. split; lra.
Qed.

Lemma plsp_joint d m1 q sel alpha beta mmin mmax cs ps : length q = length m1 -> plsp_p_m1 d m1 sel alpha mmin mmax cs = Ok ps ->
  exists rs, plsp_call d m1 q sel alpha beta mmin mmax cs = Ok rs /\ length rs = length m1 /\
    forall i, (i < length m1)%nat -> nth i rs NaN = nmul (nth i ps NaN) (powerlaw_pdf (nth i q NaN) beta (ndiv (l_m2min d) (nth i m1 NaN)) (Fin 1) (Fin 0)).
Proof.
  intros HQ HP. assert (LP : length ps = length m1).
  { unfold plsp_p_m1 in HP. destruct (project _ _ _) as [e|]; [|discriminate]. cbn [rbind] in HP. destruct (plsp_norm _ _ _ _ _) as [nn|]; [|discriminate]. cbn [rbind] in HP.
    destruct (Nat.eqb_spec (length m1) (length e)) as [EE|EE]; [|discriminate]. apply Ok_inj in HP. rewrite <- HP. apply nth_map2_len; auto. }
  unfold plsp_call. rewrite HP. cbn [rbind].
  destruct (product_points ps (map2 (fun qq mm => plsp_p_q d qq mm beta) q m1) (length m1) (fun i x => x = nth i ps NaN)) as (rs & E & L & D); auto.
  { apply nth_map2_len; auto. }
  exists rs. split; auto. split; auto. intros i Hi. destruct (D i Hi) as (v & -> & ->). f_equal. rewrite (map2_nth' (fun qq mm => plsp_p_q d qq mm beta) q m1 i NaN NaN NaN) by lia. reflexivity.
Qed.

Lemma plsp_joint_made s normalize n m1pe m1inj mmin m2min mmax k d m1 q sel alpha beta lo hi cs ps :
  make_plsp s normalize n m1pe m1inj mmin m2min mmax k = Ok d -> length q = length m1 -> plsp_p_m1 d m1 sel alpha lo hi cs = Ok ps ->
  exists rs, plsp_call d m1 q sel alpha beta lo hi cs = Ok rs /\ length rs = length m1 /\
    forall i, (i < length m1)%nat -> nth i rs NaN = nmul (nth i ps NaN) (powerlaw_pdf (nth i q NaN) beta (ndiv m2min (nth i m1 NaN)) (Fin 1) (Fin 0)).
Proof.
  intros HD HQ HP. assert (E : l_m2min d = m2min).
  { unfold make_plsp in HD. destruct (hand_knots _ _ _ _) as [ki|]; [|discriminate]. cbn [rbind] in HD. destruct (make_spline _ _ _ _ _ _ _ _) as [sp|]; [|discriminate]. cbn [rbind] in HD.
    apply Ok_inj in HD. rewrite <- HD. reflexivity. }
  rewrite <- E. apply plsp_joint; auto.
Qed.

Lemma ln_half_gap : 1 / 2 <= ln 1 - ln (1 / 2) /\ 1 / 2 <= ln 2 - ln (1 / 4).
Proof.
  assert (A : 1 / 2 <= ln 2).
  { rewrite <- (ln_exp (1/2)) at 1. apply ln_le'; [apply exp_pos|].
    apply Rsqr_incr_0_var; [|lra]. unfold Rsqr. rewrite <- exp_plus. replace (1/2 + 1/2) with 1 by lra. pose proof exp_le_3. lra. }
  replace (1 / 4) with (/ 4) by lra. replace (ln (1 / 2)) with (ln (/ 2)) by (f_equal; lra). rewrite !ln_Rinv by lra. rewrite ln_1. replace 4 with (2 * 2) by lra. rewrite ln_mult by lra. lra.
Qed.
