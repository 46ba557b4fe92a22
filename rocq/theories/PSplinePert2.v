(** Power-law-times-spline mass and redshift models. *)
From Verif Require Export PSplinePert.
From Verif Require Export Spec.
Open Scope R_scope.

(** ** smoothing window *)
Definition window (mmin d m : R) : R := if Rleb m mmin then 0 else if Rltb m (mmin + d) then / (1 + exp (smooth_arg d m mmin)) else 1.
Lemma smoothing_fin mmin d m : 0 <= d -> smoothing (Fin m) (Fin mmin) (Fin d) = Fin (window mmin d m).
Proof.
  intros Hd. unfold smoothing, window, ngt. rewrite !nsub_fin. cbn [nlt nle]. destruct (Rleb m mmin) eqn:E; [reflexivity|]. apply Rleb_false in E. cbn [nwhere].
  rewrite (Rltb_t 0) by lra. cbn [andb]. replace (Rltb (m - mmin) d) with (Rltb m (mmin + d)) by (apply eq_true_iff_eq; rewrite !Rltb_true; split; lra).
  destruct (Rltb m (mmin + d)) eqn:E2; [apply Rltb_true in E2|reflexivity].
  rewrite !ndiv_fin by lra. rewrite nadd_fin, nexp_fin, nadd_fin. pose proof (exp_pos (smooth_arg d m mmin)) as PE. unfold smooth_arg in PE.
  rewrite ndiv_fin by lra. cbn [nwhere nisinf nisnan orb]. apply (f_equal Fin). unfold smooth_arg. unfold Rdiv. rewrite Rmult_1_l. f_equal. ring.
Qed.
Lemma window_spec mmin d : 0 <= d ->
  (forall m, m <= mmin -> window mmin d m = 0) /\ (forall m, mmin < m -> mmin + d <= m -> window mmin d m = 1) /\
  (forall m, 0 <= window mmin d m <= 1) /\ (forall m m', m <= m' -> window mmin d m <= window mmin d m') /\
  (forall m m', mmin < m -> m < m' -> m' < mmin + d -> window mmin d m < window mmin d m').
Proof.
  intros Hd.
  assert (R : forall m, mmin < m < mmin + d -> 0 < / (1 + exp (smooth_arg d m mmin)) < 1).
  { intros m Hm. pose proof (exp_pos (smooth_arg d m mmin)). split; [apply Rinv_0_lt_compat; lra|]. rewrite <- Rinv_1. apply Rinv_lt_contravar; lra. }
  assert (ST : forall m m', mmin < m -> m < m' -> m' < mmin + d -> window mmin d m < window mmin d m').
  { intros m m' H1 H2 H3. unfold window. rewrite !Rleb_f, !Rltb_t by lra. pose proof (exp_pos (smooth_arg d m mmin)). pose proof (exp_pos (smooth_arg d m' mmin)).
    apply Rinv_lt_contravar; [apply Rmult_lt_0_compat; lra|]. apply Rplus_lt_compat_l. apply exp_increasing. apply smooth_arg_decr; lra. }
  assert (B : forall m, 0 <= window mmin d m <= 1).
  { intros m. unfold window. destruct (Rleb m mmin) eqn:E; [lra|]. apply Rleb_false in E. destruct (Rltb m (mmin + d)) eqn:E2; [|lra]. apply Rltb_true in E2. specialize (R m). lra. }
  split; [intros m Hm; unfold window; rewrite Rleb_t by auto; auto|].
  split; [intros m Hm Hm'; unfold window; rewrite Rleb_f, Rltb_f by auto; auto|]. split; auto. split; auto.
  intros m m' Hm. destruct (Req_dec m m') as [->|N]; [lra|]. destruct (Rle_dec m mmin) as [L|L].
  - assert (window mmin d m = 0) as -> by (unfold window; rewrite Rleb_t by auto; auto). apply B.
  - destruct (Rlt_dec m' (mmin + d)) as [L2|L2]; [left; apply ST; lra|]. assert (window mmin d m' = 1) as -> by (unfold window; rewrite Rleb_f, Rltb_f by lra; auto). apply B.
Qed.
Lemma smoothing_window mmin d : 0 <= d -> exists w : R -> R, (forall m, smoothing (Fin m) (Fin mmin) (Fin d) = Fin (w m)) /\
  (forall m, m <= mmin -> w m = 0) /\ (forall m, mmin < m -> mmin + d <= m -> w m = 1) /\
  (forall m, 0 <= w m <= 1) /\ (forall m m', m <= m' -> w m <= w m') /\ (forall m m', mmin < m -> m < m' -> m' < mmin + d -> w m < w m').
Proof. intros Hd. exists (window mmin d). split; [intros; apply smoothing_fin; auto|]. apply window_spec; auto. Qed.

(** ** hand-made knots *)
Lemma hand_knots_fin lo hi n k : (k <= n)%nat -> exists ts is, hand_knots (Fin lo) (Fin hi) n k = Ok (map Fin ts, map Fin is) /\ length ts = (2 * (k - 1) + (n + 2 - k))%nat.
Proof.
  intros H. unfold hand_knots. assert ((Z.of_nat n - Z.of_nat k + 2 <? 0)%Z = false) as -> by (apply Z.ltb_ge; lia).
  rewrite nlinspace_fin by lia. destruct (rlinspace lo hi (n + 2 - k)) as [|a [|b l]] eqn:E.
  1,2: apply (f_equal (@length R)) in E; rewrite rlinspace_length in E; cbn in E; lia.
  cbn [map]. rewrite nsub_fin. cbv zeta.
  exists (map (fun i => lo - (b - a) * INR i) (rev (seq 1 (k - 1))) ++ (a :: b :: l) ++ map (fun i => hi + (b - a) * INR i) (seq 1 (k - 1)))%list, (a :: b :: l). split.
  - apply (f_equal Ok). f_equal. rewrite !map_app, !map_map. reflexivity.
  - rewrite !app_length, !map_length, rev_length, !seq_length. rewrite <- E, rlinspace_length. lia.
Qed.
Lemma wrong_order s nrm n m1pe m1inj mmin m2min mmax k : 0 < mmin -> 0 < mmax -> (k <= n)%nat -> k <> 4%nat ->
  make_plsp s nrm n m1pe m1inj (Fin mmin) m2min (Fin mmax) k = Err AssertionError.
Proof.
  intros H1 H2 HK HN. unfold make_plsp. rewrite !nlog_fin by auto. destruct (hand_knots_fin (ln mmin) (ln mmax) n k HK) as (ts & is & -> & L). cbn [rbind fst snd].
  unfold make_spline. cbn [option_map make_knots rbind]. assert (EL : length (if logx s then map nlog (map Fin ts) else map Fin ts) = length ts) by (destruct (logx s); rewrite ?map_length; auto).
  rewrite EL, L. assert (E : (2 * (k - 1) + (n + 2 - k) =? n + 4)%nat = false) by (apply Nat.eqb_neq; lia). rewrite E. reflexivity.
Qed.
Lemma joint_fails n_m n_q m1pe qpe m1inj qinj mmin mmax k : exists e, make_pljoint n_m n_q m1pe qpe m1inj qinj mmin mmax k = Err e.
Proof.
  unfold make_pljoint. destruct (hand_knots _ _ n_m k) as [km|e]; cbn [rbind]; [|eauto]. destruct (hand_knots _ _ n_q k) as [kq|e]; cbn [rbind]; [|eauto].
  destruct (make_spline KB n_m _ _ _ _ _ _); cbn [rbind]; [|eauto]. destruct (make_spline KB n_q _ _ _ _ _ _); cbn [rbind]; eauto.
Qed.
Lemma hand_make_gen lo hi l h n : (4 <= n)%nat -> exists ts is sp, hand_knots (Fin lo) (Fin hi) n 4 = Ok (map Fin ts, map Fin is) /\ length ts = (n + 4)%nat /\
  make_spline KB n 4 (Some (map Fin ts)) (Some (map Fin is)) (Fin l) (Fin h) false = Ok sp /\
  sp_kind sp = KB /\ sp_N sp = n /\ sp_order sp = 4%nat /\ sp_lo sp = Fin l /\ sp_hi sp = Fin h /\ sp_knots sp = map Fin ts /\ sp_normalize sp = false.
Proof.
  intros Hn. destruct (hand_knots_fin lo hi n 4 Hn) as (ts & is & E & L). assert (LT : length ts = (n + 4)%nat) by lia. exists ts, is. unfold make_spline. cbn [option_map logx make_knots rbind].
  rewrite map_length, LT, Nat.eqb_refl. cbn [negb]. eexists. split; auto. split; auto. split; [reflexivity|]. cbn. repeat split.
Qed.
Lemma joint_attribute n_m n_q m1pe qpe m1inj qinj mmin mmax : (4 <= n_m)%nat -> (4 <= n_q)%nat -> 0 < mmin < mmax ->
  make_pljoint n_m n_q m1pe qpe m1inj qinj (Fin mmin) (Fin mmax) 4 = Err AttributeError.
Proof.
  intros H1 H2 HM. unfold make_pljoint. rewrite !nlog_fin by lra.
  destruct (hand_make_gen (ln mmin) (ln mmax) (ln mmin) (ln mmax) n_m H1) as (ts & is & sp & -> & _ & E1 & _). cbn [rbind].
  destruct (hand_make_gen 0 1 0 1 n_q H2) as (ts2 & is2 & sp2 & -> & _ & E2 & _). cbn [rbind fst snd]. unfold default_normalize. rewrite E1. cbn [rbind]. rewrite E2. reflexivity.
Qed.

(** ** mass model *)
Lemma powerlaw_fin m alpha lo hi : 0 < lo < hi -> exists v, powerlaw_pdf (Fin m) (Fin alpha) (Fin lo) (Fin hi) (Fin 0) = Fin v /\ 0 <= v /\ (lo <= m <= hi -> 0 < v).
Proof.
  intros H. destruct (powerlaw_floor_reals m alpha lo hi 0) as [H1 H2]. destruct (Rlt_dec m lo) as [L|L]; [exists 0; split; [apply H1; auto|lra]|].
  destruct (Rlt_dec hi m) as [L2|L2]; [exists 0; split; [apply H1; auto|lra]|]. destruct (H2 H) as (p & E & P); [lra|]. exists p. split; auto. split; [lra|auto].
Qed.
Lemma plsp_unit n m1pe m1inj mmin m2min mmax d alpha lo hi cs sel : (4 <= n)%nat -> 0 < mmin < mmax -> Forall (fun m => 0 < m) m1pe -> Forall (fun m => 0 < m) m1inj ->
  make_plsp KB false n (map Fin m1pe) (map Fin m1inj) (Fin mmin) m2min (Fin mmax) 4 = Ok d -> length cs = n -> 0 < lo < hi -> 
  (exists m, In m (rlinspace mmin mmax 1000) /\ lo <= m <= hi) ->
  exists p, plsp_p_m1 d (map Fin (m1_samples m1pe m1inj sel)) sel (Fin alpha) (Fin lo) (Fin hi) (map Fin cs) = Ok (map Fin (map p (m1_samples m1pe m1inj sel))) /\
    (forall m, 0 <= p m) /\ (forall m, m < lo \/ hi < m -> p m = 0) /\ trapezoid (rlinspace mmin mmax 1000) (map p (rlinspace mmin mmax 1000)) = 1 /\
    (exists ts is, hand_knots (Fin (ln mmin)) (Fin (ln mmax)) n 4 = Ok (map Fin ts, map Fin is) /\ length ts = (n + 4)%nat /\
       let f m := toR (powerlaw_pdf (Fin m) (Fin (- alpha)) (Fin lo) (Fin hi) (Fin 0)) * exp (lin KB ts 4 n (ln mmin) (ln mmax) cs (ln m)) in
       forall m, p m = f m / trapezoid (rlinspace mmin mmax 1000) (map f (rlinspace mmin mmax 1000))).
Proof.
  intros Hn HM P1 P2 HD HC HL (g & Hg & Hgr). unfold make_plsp in HD. rewrite !nlog_fin in HD by lra.
  destruct (hand_make_gen (ln mmin) (ln mmax) (ln mmin) (ln mmax) n Hn) as (ts & is & sp & EK & LT & E1 & K1 & K2 & K3 & K4 & K5 & K6 & K7). rewrite EK in HD. cbn [rbind fst snd] in HD. rewrite E1 in HD. cbn [rbind] in HD.
  rewrite nlinspace_fin in HD by apply two_thousand. apply Ok_inj in HD. set (ms := rlinspace mmin mmax 1000) in *.
  assert (ML : forall l, Forall (fun m => 0 < m) l -> map nlog (map Fin l) = map Fin (map ln l)).
  { intros l Hl. rewrite !map_map. apply map_ext_in. intros x Hx. rewrite Forall_forall in Hl. apply nlog_fin; auto. }
  assert (PM : Forall (fun m => 0 < m) ms) by (apply Forall_forall; intros x Hx; apply rlinspace_range in Hx; lra).
  rewrite !ML in HD by auto. set (S := lin KB ts 4 n (ln mmin) (ln mmax) cs).
  assert (PR : forall xs, project sp (bases sp (map Fin xs)) (map Fin cs) = Ok (map Fin (map S xs))).
  { intros xs. apply lin_project; auto; try lia. discriminate. }
  set (pl := fun m => toR (powerlaw_pdf (Fin m) (Fin (- alpha)) (Fin lo) (Fin hi) (Fin 0))).
  assert (PL : forall m, powerlaw_pdf (Fin m) (Fin (- alpha)) (Fin lo) (Fin hi) (Fin 0) = Fin (pl m) /\ 0 <= pl m /\ (lo <= m <= hi -> 0 < pl m)).
  { intros m. unfold pl. destruct (powerlaw_fin m (- alpha) lo hi HL) as (w & -> & A & B). cbn [toR]. auto. }
  set (f := fun m => pl m * exp (S (ln m))). set (T := trapezoid ms (map f ms)).
  assert (TP : 0 < T).
  { apply grid_pos; [apply two_thousand|lra| |].
    - intros z _. apply Rmult_le_pos; [apply PL|left; apply exp_pos].
    - exists g. split; auto. apply Rmult_lt_0_compat; [apply PL; auto|apply exp_pos]. }
  assert (NV : plsp_norm d (Fin alpha) (Fin lo) (Fin hi) (map Fin cs) = Ok (Fin T)).
  { rewrite <- HD. unfold plsp_norm. cbn [l_sp l_norm l_ms]. rewrite PR. cbn [rbind]. apply (f_equal Ok). unfold T. rewrite <- ntrapz_fin. f_equal.
    rewrite !map_map. rewrite (map2_maps (fun m v => nmul (powerlaw_pdf m (nneg (Fin alpha)) (Fin lo) (Fin hi) (Fin 0)) (nexp v)) Fin (fun x => Fin (S (ln x))) ms).
    apply map_ext. intros m. rewrite nneg_fin, (proj1 (PL m)), nexp_fin, nmul_fin. reflexivity. }
  exists (fun m => f m / T). split; [|split; [|split; [|split; [|exists ts, is; split; [exact EK|split; [exact LT|reflexivity]]]]]].
  - unfold plsp_p_m1. rewrite NV.
    assert (ED : project (l_sp d) (if sel then l_pe d else l_inj d) (map Fin cs) = Ok (map Fin (map (fun m => S (ln m)) (m1_samples m1pe m1inj sel)))).
    { rewrite <- HD. cbn [l_sp l_pe l_inj]. destruct sel; rewrite PR, !map_map; reflexivity. }
    rewrite ED. cbn [rbind]. rewrite !map_length, Nat.eqb_refl. apply (f_equal Ok). rewrite !map_map.
    rewrite (map2_maps (fun m v => ndiv (nmul (powerlaw_pdf m (nneg (Fin alpha)) (Fin lo) (Fin hi) (Fin 0)) (nexp v)) (Fin T)) Fin (fun x => Fin (S (ln x)))).
    apply map_ext. intros m. rewrite nneg_fin, (proj1 (PL m)), nexp_fin, nmul_fin, ndiv_fin by lra. reflexivity.
  - intros m. apply Rmult_le_pos; [apply Rmult_le_pos; [apply PL|left; apply exp_pos]|left; apply Rinv_0_lt_compat; auto].
  - intros m Hm. unfold f, pl. destruct (powerlaw_floor_reals m (- alpha) lo hi 0) as [Z _]. rewrite Z by auto. cbn [toR]. unfold Rdiv. ring.
  - apply unit_by_norm. fold T. lra.
Qed.

(** every basis class: the spline enters through its values only *)
Lemma plsp_unit_any s nrm n m1pe m1inj mmin m2min mmax d alpha lo hi cs sel k g e : 0 < mmin < mmax ->
  make_plsp s nrm n (map Fin m1pe) (map Fin m1inj) (Fin mmin) m2min (Fin mmax) k = Ok d -> 0 < lo < hi -> (exists m, In m (rlinspace mmin mmax 1000) /\ lo <= m <= hi) ->
  eval (l_sp d) (map nlog (map Fin (rlinspace mmin mmax 1000))) cs = Ok (map Fin (map g (rlinspace mmin mmax 1000))) ->
  eval (l_sp d) (map nlog (map Fin (m1_samples m1pe m1inj sel))) cs = Ok (map Fin (map e (m1_samples m1pe m1inj sel))) ->
  exists T pl, 0 < T /\ (forall m, powerlaw_pdf (Fin m) (Fin (- alpha)) (Fin lo) (Fin hi) (Fin 0) = Fin (pl m)) /\
    plsp_p_m1 d (map Fin (m1_samples m1pe m1inj sel)) sel (Fin alpha) (Fin lo) (Fin hi) cs = Ok (map Fin (map (fun m => pl m * exp (e m) / T) (m1_samples m1pe m1inj sel))) /\
    trapezoid (rlinspace mmin mmax 1000) (map (fun m => pl m * exp (g m) / T) (rlinspace mmin mmax 1000)) = 1.
Proof.
  intros HM HD HL (m0 & Hg & Hgr) EG EE. unfold make_plsp in HD. rewrite !nlog_fin in HD by lra. destruct (hand_knots _ _ n k) as [ki|]; [|discriminate]. cbn [rbind] in HD.
  destruct (make_spline s n 4 _ _ _ _ nrm) as [sp|]; [|discriminate]. cbn [rbind] in HD. rewrite nlinspace_fin in HD by apply two_thousand. apply Ok_inj in HD. set (ms := rlinspace mmin mmax 1000) in *.
  set (pl := fun m => toR (powerlaw_pdf (Fin m) (Fin (- alpha)) (Fin lo) (Fin hi) (Fin 0))).
  assert (PL : forall m, powerlaw_pdf (Fin m) (Fin (- alpha)) (Fin lo) (Fin hi) (Fin 0) = Fin (pl m) /\ 0 <= pl m /\ (lo <= m <= hi -> 0 < pl m)).
  { intros m. unfold pl. destruct (powerlaw_fin m (- alpha) lo hi HL) as (w & -> & A & B). cbn [toR]. auto. }
  set (f := fun m => pl m * exp (g m)). set (T := trapezoid ms (map f ms)).
  assert (TP : 0 < T).
  { apply grid_pos; [apply two_thousand|lra| |].
    - intros z _. apply Rmult_le_pos; [apply PL|left; apply exp_pos].
    - exists m0. split; auto. apply Rmult_lt_0_compat; [apply PL; auto|apply exp_pos]. }
  assert (NV : plsp_norm d (Fin alpha) (Fin lo) (Fin hi) cs = Ok (Fin T)).
  { unfold eval in EG. rewrite <- HD in *. unfold plsp_norm. cbn [l_sp l_norm l_ms] in *. rewrite EG. cbn [rbind]. apply (f_equal Ok). unfold T. rewrite <- ntrapz_fin. f_equal.
    rewrite !map_map. rewrite (map2_maps (fun m v => nmul (powerlaw_pdf m (nneg (Fin alpha)) (Fin lo) (Fin hi) (Fin 0)) (nexp v)) Fin (fun x => Fin (g x)) ms).
    apply map_ext. intros m. rewrite nneg_fin, (proj1 (PL m)), nexp_fin, nmul_fin. reflexivity. }
  exists T, pl. split; [exact TP|]. split; [intros m; apply PL|]. split.
  - unfold plsp_p_m1. rewrite NV.
    assert (ED : project (l_sp d) (if sel then l_pe d else l_inj d) cs = Ok (map Fin (map e (m1_samples m1pe m1inj sel)))).
    { unfold eval in EE. rewrite <- HD in *. cbn [l_sp l_pe l_inj] in *. destruct sel; exact EE. }
    rewrite ED. cbn [rbind]. rewrite !map_length, Nat.eqb_refl. apply (f_equal Ok). rewrite !map_map.
    rewrite (map2_maps (fun m v => ndiv (nmul (powerlaw_pdf m (nneg (Fin alpha)) (Fin lo) (Fin hi) (Fin 0)) (nexp v)) (Fin T)) Fin (fun x => Fin (e x))).
    apply map_ext. intros m. rewrite nneg_fin, (proj1 (PL m)), nexp_fin, nmul_fin, ndiv_fin by lra. reflexivity.
  - change (trapezoid ms (map (fun m => f m / T) ms) = 1). apply unit_by_norm. fold T. lra.
Qed.

Lemma plsp_values n m1pe m1inj mmin m2min mmax cs : (4 <= n)%nat -> 0 < mmin < mmax -> length cs = n ->
  exists d g, make_plsp KB false n (map Fin m1pe) (map Fin m1inj) (Fin mmin) m2min (Fin mmax) 4 = Ok d /\
    forall xs, Forall (fun m => 0 < m) xs -> eval (l_sp d) (map nlog (map Fin xs)) (map Fin cs) = Ok (map Fin (map g xs)).
Proof.
  intros Hn HM HC. unfold make_plsp. rewrite !nlog_fin by lra.
  destruct (hand_make_gen (ln mmin) (ln mmax) (ln mmin) (ln mmax) n Hn) as (ts & is & sp & EK & LT & E1 & K1 & K2 & K3 & K4 & K5 & K6 & K7). rewrite EK. cbn [rbind fst snd]. rewrite E1. cbn [rbind].
  eexists. exists (fun m => lin KB ts 4 n (ln mmin) (ln mmax) cs (ln m)). split; [reflexivity|]. intros xs Hx. cbn [l_sp]. unfold eval.
  assert (map nlog (map Fin xs) = map Fin (map ln xs)) as ->. { rewrite !map_map. apply map_ext_in. intros x I. rewrite Forall_forall in Hx. apply nlog_fin; auto. }
  rewrite (lin_project sp KB ts 4 n (ln mmin) (ln mmax)); auto; try lia; try discriminate. now rewrite !map_map.
Qed.

(** ** redshift model *)
Section PlZ.
Variables (dVcdz : num -> num) (v : R -> R) (s : skind) (n : nat) (p0 : R) (pe : list R) (i0 : R) (inj : list R).
Let a := grid_lo p0 pe i0 inj.
Let b := grid_hi p0 pe i0 inj.
Let grid := rlinspace a b 1000.
Let base := redshift_model_init dVcdz (Fin p0) (map Fin pe) (Fin i0) (map Fin inj).
Hypothesis Hs : s = KB \/ s = KLogX.
Hypothesis Hn : (4 <= n)%nat.
Hypothesis Hab : -1 < a < b.
Hypothesis Hlog : logx s = true -> 0 < a /\ Forall (fun z => 0 < z) (p0 :: pe) /\ Forall (fun z => 0 < z) (i0 :: inj).
Hypothesis Hz : Forall (fun z => -1 < z) (p0 :: pe) /\ Forall (fun z => -1 < z) (i0 :: inj).
Hypothesis HV : forall z, -1 < z -> dVcdz (Fin z) = Fin (v z).
Hypothesis Hv : forall z, a <= z <= b -> 0 <= v z.
Hypothesis Hv' : forall z, a < z <= b -> 0 < v z.

Lemma base_fin : base = {| zm_min := Fin a; zm_max := Fin b; zm_zs := nlinspace (Fin a) (Fin b) 1000; zm_dV := map dVcdz (nlinspace (Fin a) (Fin b) 1000) |}.
Proof. exact (redshift_init_fin dVcdz p0 pe i0 inj). Qed.
Lemma vr : valid_range s a b.
Proof. split; [lra|]. intros L. apply Hlog; auto. Qed.

Lemma plz_call m lamb cs sel : make_plz_model dVcdz s n (Fin p0) (map Fin pe) (Fin i0) (map Fin inj) = Ok m -> length cs = n ->
  exists rate, plz_model_call m (map Fin (all_samples p0 pe i0 inj sel)) sel (Fin lamb) (map Fin cs) =
      Ok (map Fin (map (fun z => if Rleb z b then rate z else 0) (all_samples p0 pe i0 inj sel))) /\
    (forall z, a <= z <= b -> 0 <= rate z) /\ trapezoid grid (map rate grid) = 1 /\
    (cs = repeat 0 n -> forall z, In z (all_samples p0 pe i0 inj sel) -> redshift_call base (Fin z) (dVcdz (Fin z)) (Fin lamb) = Fin (if Rleb z b then rate z else 0)) /\
    let f z := v z * Rpower (1 + z) (lamb - 1) * exp (lin s (uniform (coord s a) (coord s b) n 4) 4 n (coord s a) (coord s b) cs z) in
    forall z, rate z = f z / trapezoid grid (map f grid).
Proof.
  intros HM HC. unfold make_plz_model in HM. fold base in HM. rewrite base_fin in HM. cbn [zm_min zm_max zm_zs] in HM.
  destruct (make_default s n 4 a b false ltac:(lia) vr) as (sp & ES & K1 & K2 & K3 & K4 & K5 & K6 & K7). rewrite ES in HM. cbn [rbind] in HM. apply Ok_inj in HM.
  rewrite nlinspace_fin in HM by apply two_thousand. fold grid in HM.
  set (ts := uniform (coord s a) (coord s b) n 4) in *. assert (LT : length ts = (n + 4)%nat) by apply uniform_length.
  set (S := lin s ts 4 n (coord s a) (coord s b) cs).
  assert (PR : forall xs, (logx s = true -> Forall (fun x => 0 < x) xs) -> project sp (bases sp (map Fin xs)) (map Fin cs) = Ok (map Fin (map S xs))).
  { intros xs Hx. apply lin_project; auto; lia. }
  assert (PG : logx s = true -> Forall (fun x => 0 < x) grid) by (intros L; apply Forall_forall; intros z HZ; apply rlinspace_range in HZ; [|lra]; destruct (Hlog L); lra).
  assert (PS : logx s = true -> Forall (fun x => 0 < x) (all_samples p0 pe i0 inj sel)) by (intros L; destruct (Hlog L) as (_ & G1 & G2); destruct sel; auto).
  assert (GR : forall z, In z grid -> a <= z <= b) by (intros z HZ; apply rlinspace_range in HZ; lra).
  assert (P : forall z, In z (all_samples p0 pe i0 inj sel) -> -1 < z).
  { destruct Hz as [H1 H2]. rewrite Forall_forall in H1, H2. destruct sel; cbn [all_samples]; auto. }
  set (f := fun z => v z * Rpower (1 + z) (lamb - 1) * exp (S z)). set (T := trapezoid grid (map f grid)).
  assert (TP : 0 < T).
  { apply grid_pos; [apply two_thousand|lra| |].
    - intros z HZ. unfold f. repeat apply Rmult_le_pos; auto; left; [apply Rpower_pos|apply exp_pos].
    - exists b. split; [apply in_last; apply two_thousand|]. unfold f. repeat apply Rmult_lt_0_compat; [apply Hv'; lra|apply Rpower_pos|apply exp_pos]. }
  assert (PW : forall z, -1 < z -> nmul (dVcdz (Fin z)) (npow (nadd (Fin 1) (Fin z)) (nsub (Fin lamb) (Fin 1))) = Fin (v z * Rpower (1 + z) (lamb - 1))).
  { intros z HZ. rewrite HV by auto. rewrite nadd_fin, nsub_fin, npow_fin, nmul_fin by lra. reflexivity. }
  assert (NV : plz_model_norm m (Fin lamb) (map Fin cs) = Ok (Fin T)).
  { rewrite <- HM. unfold plz_model_norm. cbn [y_sp y_norm y_z zm_dV zm_zs]. rewrite PR by auto. cbn [rbind]. apply (f_equal Ok). unfold T. rewrite <- ntrapz_fin. f_equal.
    rewrite !map_map. rewrite (map2_maps (fun d z => nmul d (npow (nadd (Fin 1) z) (nsub (Fin lamb) (Fin 1)))) (fun x => dVcdz (Fin x)) Fin grid).
    rewrite map2_maps. apply map_ext_in. intros z HZ. specialize (GR z HZ). rewrite PW, nexp_fin, nmul_fin by lra. reflexivity. }
  exists (fun z => f z / T). split; [|split; [|split; [|split; [|reflexivity]]]].
  - unfold plz_model_call. rewrite NV.
    assert (ED : project (y_sp m) (if sel then y_pe m else y_inj m) (map Fin cs) = Ok (map Fin (map S (all_samples p0 pe i0 inj sel)))).
    { rewrite <- HM. cbn [y_sp y_pe y_inj]. destruct sel; cbn [all_samples] in *; rewrite <- PR by auto; reflexivity. }
    assert (DV : (if sel then y_dVpe m else y_dVinj m) = map dVcdz (map Fin (all_samples p0 pe i0 inj sel))) by (rewrite <- HM; destruct sel; reflexivity).
    rewrite ED, DV. cbn [rbind]. rewrite !map_length, Nat.eqb_refl. cbn [negb]. apply (f_equal Ok).
    assert (MX : zm_max (y_z m) = Fin b) by (rewrite <- HM; reflexivity). rewrite MX. rewrite !map_map.
    rewrite (map2_maps (fun d z => nmul d (npow (nadd (Fin 1) z) (nsub (Fin lamb) (Fin 1)))) (fun x => dVcdz (Fin x)) Fin).
    rewrite map2_maps. rewrite (map2_maps (fun zz p => nwhere (nle zz (Fin b)) (ndiv p (Fin T)) (Fin 0)) Fin). apply map_ext_in. intros z HZ. specialize (P z HZ).
    rewrite PW, nexp_fin, nmul_fin, ndiv_fin by lra. cbn [nle]. destruct (Rleb z b); reflexivity.
  - intros z HZ. unfold f. apply Rmult_le_pos; [|left; apply Rinv_0_lt_compat; auto]. repeat apply Rmult_le_pos; auto; left; [apply Rpower_pos|apply exp_pos].
  - apply unit_by_norm. fold T. lra.
  - intros EC z HZ. assert (SZ : forall x, (logx s = true -> 0 < x) -> S x = 0).
    { intros x Hx. apply Fin_inj. unfold S. rewrite EC, (lin_const s ts 4 n (coord s a) (coord s b) 0 x Hs ltac:(lia) LT Hx). destruct (column_fin s ts 4 n (coord s a) (coord s b) x Hs ltac:(lia) LT Hx) as (w & -> & _). rewrite nsum_fin, nmul_fin. apply (f_equal Fin). ring. }
    assert (TE : T = trapezoid grid (map (fun z => v z * Rpower (1 + z) (lamb - 1)) grid)).
    { unfold T. f_equal. apply map_ext_in. intros x Hx. unfold f. rewrite SZ, exp_0, Rmult_1_r; auto. intros L. specialize (PG L). rewrite Forall_forall in PG. auto. }
    assert (RN : redshift_normalization base (Fin lamb) = Fin T).
    { rewrite TE. apply (redshift_norm_fin dVcdz v a b lamb base Hab base_fin). intros x Hx. apply HV. lra. }
    unfold redshift_call. rewrite RN. rewrite base_fin. cbn [zm_max nle]. destruct (Rleb z b); cbn [nwhere]; [|reflexivity].
    rewrite HV by auto. rewrite redshift_prob_fin, ndiv_fin by (auto; lra). apply (f_equal Fin). unfold f. rewrite SZ, exp_0; [unfold Rdiv; ring|].
    intros L. specialize (PS L). rewrite Forall_forall in PS. auto.
Qed.
Lemma plz_any s' m lamb cs sel g e : make_plz_model dVcdz s' n (Fin p0) (map Fin pe) (Fin i0) (map Fin inj) = Ok m ->
  eval (y_sp m) (map Fin grid) cs = Ok (map Fin (map g grid)) ->
  eval (y_sp m) (map Fin (all_samples p0 pe i0 inj sel)) cs = Ok (map Fin (map e (all_samples p0 pe i0 inj sel))) ->
  let f z := v z * Rpower (1 + z) (lamb - 1) in let T := trapezoid grid (map (fun z => f z * exp (g z)) grid) in
  0 < T /\ plz_model_call m (map Fin (all_samples p0 pe i0 inj sel)) sel (Fin lamb) cs =
      Ok (map Fin (map (fun z => if Rleb z b then f z * exp (e z) / T else 0) (all_samples p0 pe i0 inj sel))) /\
    trapezoid grid (map (fun z => f z * exp (g z) / T) grid) = 1.
Proof.
  intros HM EG EE f T. unfold make_plz_model in HM. fold base in HM. rewrite base_fin in HM. cbn [zm_min zm_max zm_zs] in HM.
  destruct (make_spline _ _ _ _ _ _ _ _) as [sp|]; [|discriminate]. cbn [rbind] in HM. apply Ok_inj in HM.
  rewrite nlinspace_fin in HM by apply two_thousand. fold grid in HM.
  assert (GR : forall z, In z grid -> a <= z <= b) by (intros z HZ; apply rlinspace_range in HZ; lra).
  assert (P : forall z, In z (all_samples p0 pe i0 inj sel) -> -1 < z).
  { destruct Hz as [H1 H2]. rewrite Forall_forall in H1, H2. destruct sel; cbn [all_samples]; auto. }
  assert (TP : 0 < T).
  { apply grid_pos; [apply two_thousand|lra| |].
    - intros z HZ. unfold f. repeat apply Rmult_le_pos; auto; left; [apply Rpower_pos|apply exp_pos].
    - exists b. split; [apply in_last; apply two_thousand|]. unfold f. repeat apply Rmult_lt_0_compat; [apply Hv'; lra|apply Rpower_pos|apply exp_pos]. }
  assert (PW : forall z, -1 < z -> nmul (dVcdz (Fin z)) (npow (nadd (Fin 1) (Fin z)) (nsub (Fin lamb) (Fin 1))) = Fin (f z)).
  { intros z HZ. rewrite HV by auto. rewrite nadd_fin, nsub_fin, npow_fin, nmul_fin by lra. reflexivity. }
  assert (NV : plz_model_norm m (Fin lamb) cs = Ok (Fin T)).
  { unfold eval in EG. rewrite <- HM in *. unfold plz_model_norm. cbn [y_sp y_norm y_z zm_dV zm_zs] in *. rewrite EG. cbn [rbind]. apply (f_equal Ok). unfold T. rewrite <- ntrapz_fin. f_equal.
    rewrite !map_map. rewrite (map2_maps (fun d z => nmul d (npow (nadd (Fin 1) z) (nsub (Fin lamb) (Fin 1)))) (fun x => dVcdz (Fin x)) Fin grid).
    rewrite map2_maps. apply map_ext_in. intros z HZ. specialize (GR z HZ). rewrite PW, nexp_fin, nmul_fin by lra. reflexivity. }
  split; [exact TP|]. split.
  - unfold plz_model_call. rewrite NV.
    assert (ED : project (y_sp m) (if sel then y_pe m else y_inj m) cs = Ok (map Fin (map e (all_samples p0 pe i0 inj sel)))).
    { unfold eval in EE. rewrite <- HM in *. cbn [y_sp y_pe y_inj] in *. destruct sel; exact EE. }
    assert (DV : (if sel then y_dVpe m else y_dVinj m) = map dVcdz (map Fin (all_samples p0 pe i0 inj sel))) by (rewrite <- HM; destruct sel; reflexivity).
    rewrite ED, DV. cbn [rbind]. rewrite !map_length, Nat.eqb_refl. cbn [negb]. apply (f_equal Ok).
    assert (MX : zm_max (y_z m) = Fin b) by (rewrite <- HM; reflexivity). rewrite MX. rewrite !map_map.
    rewrite (map2_maps (fun d z => nmul d (npow (nadd (Fin 1) z) (nsub (Fin lamb) (Fin 1)))) (fun x => dVcdz (Fin x)) Fin).
    rewrite map2_maps. rewrite (map2_maps (fun zz p => nwhere (nle zz (Fin b)) (ndiv p (Fin T)) (Fin 0)) Fin). apply map_ext_in. intros z HZ. specialize (P z HZ).
    rewrite PW, nexp_fin, nmul_fin, ndiv_fin by lra. cbn [nle]. destruct (Rleb z b); reflexivity.
  - apply unit_by_norm. fold T. lra.
Qed.
Lemma plz_above m z e lamb cs sel ps i x : make_plz_model dVcdz s n (Fin p0) (map Fin pe) (Fin i0) (map Fin inj) = Ok m ->
  plz_model_call m z sel lamb cs = Ok ps -> (i < length ps)%nat -> nth i z e = Fin x -> b < x -> nth i ps NaN = Fin 0.
Proof.
  clear Hn. intros HM HP Hi HX HB. unfold make_plz_model in HM. fold base in HM. rewrite base_fin in HM. cbn [zm_min zm_max] in HM. destruct (make_spline _ _ _ _ _ _ _ _) as [sp|]; [|discriminate]. cbn [rbind] in HM. apply Ok_inj in HM.
  assert (MX : zm_max (y_z m) = Fin b) by (rewrite <- HM; reflexivity).
  unfold plz_model_call in HP. destruct (project _ _ _) as [q|]; [|discriminate]. cbn [rbind] in HP. destruct (plz_model_norm _ _ _) as [T|]; [|discriminate]. cbn [rbind] in HP.
  destruct (negb _); [discriminate|]. apply Ok_inj in HP. rewrite <- HP in *. rewrite map2_length in Hi. rewrite (map2_nth' _ _ _ _ e NaN) by lia. rewrite HX, MX. cbn [nle]. rewrite Rleb_f by auto. reflexivity.
Qed.
End PlZ.
