(** Values of the spline classes for any knots. *)
From Verif Require Export PBSplineOut SpecEval.
Open Scope R_scope.

Lemma sum_by_index (g : nat -> R) cs : Rlsum (map2 Rmult (map g (seq 0 (length cs))) cs) = Rlsum (map (fun i => nth i cs 0 * g i) (seq 0 (length cs))).
Proof.
  assert (G : forall cs a, Rlsum (map2 Rmult (map g (seq a (length cs))) cs) = Rlsum (map (fun i => nth (i - a) cs 0 * g i) (seq a (length cs)))).
  { induction cs0 as [|c l IH]; intros a; [reflexivity|]. cbn [length seq map map2 Rlsum]. rewrite Nat.sub_diag. cbn [nth]. rewrite IH. rewrite (Rmult_comm c). f_equal.
    f_equal. apply map_ext_in. intros i Hi. apply in_seq in Hi. replace (i - a)%nat with (S (i - S a)) by lia. reflexivity. }
  rewrite G. f_equal. apply map_ext. intros i. rewrite Nat.sub_0_r. reflexivity.
Qed.

Lemma made s n k knots interior a b nrm sp : make_spline s n k knots interior (Fin a) (Fin b) nrm = Ok sp -> valid_range s a b ->
  sp_kind sp = s /\ sp_N sp = n /\ sp_order sp = k /\ sp_lo sp = Fin (coord s a) /\ sp_hi sp = Fin (coord s b) /\ length (sp_knots sp) = (n + k)%nat /\ sp_normalize sp = nrm.
Proof.
  intros H [HAB HL]. destruct (make_inv _ _ _ _ _ _ _ _ _ H) as (ks & lo & hi & grid & vols & LK & -> & _ & _ & -> & -> & _).
  cbn [sp_kind sp_N sp_order sp_lo sp_hi sp_knots sp_normalize]. rewrite (coord_num s a), (coord_num s b) by (intros E; specialize (HL E); lra). auto 10.
Qed.

Lemma in_coord s a b x : valid_range s a b -> (logx s = true -> 0 < x) -> (a <= x <= b <-> coord s a <= coord s x <= coord s b).
Proof.
  intros [HAB HL] HX. unfold coord. destruct (logx s); [|tauto]. specialize (HL eq_refl). specialize (HX eq_refl). split; intros [H1 H2].
  - split; apply ln_le'; lra.
  - split; apply Rnot_lt_le; intros L; [apply (ln_increasing x a) in L|apply (ln_increasing b x) in L]; lra.
Qed.

Lemma raw_mspline us k i x : spaced_knots us -> (1 <= k)%nat -> (i + k < length us)%nat -> raw_basis KBasis (map Fin us) k i (Fin x) = Fin (Mspline us k i x).
Proof.
  intros HT Hk Hi. destruct (basis_textbook us HT k i x Hk Hi) as (v & E & V & Z). cbn [raw_basis]. rewrite E. apply (f_equal Fin). unfold Mspline.
  destruct (Req_dec (nth (i + k) us 0) (nth i us 0)) as [Q|Q].
  - rewrite (Z Q), Q, Rminus_eq_0, ratio_0. ring.
  - rewrite ratio_val by lra. apply (Rmult_eq_reg_r (nth (i + k) us 0 - nth i us 0)); [|lra]. rewrite V. field. lra.
Qed.

(** the columns of the design matrix of the three classes without logarithm in y *)
Lemma column_value s us k n a b x : logy s = false -> spaced_knots us -> (1 <= k)%nat -> length us = (n + k)%nat -> valid_range s a b -> (logx s = true -> 0 < x) ->
  column s (map Fin us) k n (Fin (coord s a)) (Fin (coord s b)) (Fin x) =
  map Fin (map (fun i => within a b x (match s with KBasis => Mspline us k i x | _ => Bspline (fun m => nth m us 0) k i (coord s x) end)) (seq 0 n)).
Proof.
  intros HY HT Hk HL HR HX. unfold column. rewrite map_map. apply map_ext_in. intros i Hi. apply in_seq in Hi.
  assert (EU : (if logx s then nlog (Fin x) else Fin x) = Fin (coord s x)).
  { unfold coord. destruct (logx s); auto. apply nlog_fin. auto. }
  unfold basis_value. rewrite EU. unfold oob_where, ngt. cbn [nlt]. pose proof (in_coord s a b x HR HX) as IC. unfold within.
  assert (RB : raw_basis s (map Fin us) k i (Fin (coord s x)) = Fin (match s with KBasis => Mspline us k i x | _ => Bspline (fun m => nth m us 0) k i (coord s x) end)).
  { destruct s; try discriminate; [apply raw_mspline; auto; lia| |]; rewrite raw_textbook; auto; try discriminate; lia. }
  rewrite RB.
  assert (OO : (Rltb (coord s x) (coord s a) || Rltb (coord s b) (coord s x))%bool = negb (Rleb a x && Rleb x b)%bool).
  { destruct (Rleb a x && Rleb x b)%bool eqn:E; cbn [negb].
    - apply andb_true_iff in E as [E1 E2]. apply Rleb_true in E1, E2. pose proof (proj1 IC (conj E1 E2)). rewrite !Rltb_f by lra. reflexivity.
    - apply orb_true_iff. destruct (Rlt_dec (coord s x) (coord s a)) as [L|L]; [left; apply Rltb_t; auto|right; apply Rltb_t]. apply Rnot_le_lt. intros Q.
      destruct (proj2 IC ltac:(lra)) as [Q1 Q2]. rewrite !Rleb_t in E by auto. discriminate. }
  rewrite OO. destruct (Rleb a x && Rleb x b)%bool; cbn [negb]; destruct s; try discriminate; reflexivity.
Qed.

Lemma within_sum a b x (g : nat -> R) cs : Rlsum (map2 Rmult (map (fun i => within a b x (g i)) (seq 0 (length cs))) cs) =
  within a b x (Rlsum (map (fun i => nth i cs 0 * g i) (seq 0 (length cs)))).
Proof.
  rewrite (sum_by_index (fun i => within a b x (g i))). unfold within. destruct (_ && _)%bool; auto.
  induction (seq 0 (length cs)) as [|j l IH]; cbn; [auto|]. cbn in IH. rewrite IH. ring.
Qed.

Lemma linear_value s n k knots interior a b sp us cs xs : s = KB \/ s = KLogX -> valid_range s a b -> (1 <= k)%nat -> (1 <= n)%nat ->
  make_spline s n k knots interior (Fin a) (Fin b) false = Ok sp -> sp_knots sp = map Fin us -> spaced_knots us -> length cs = n -> (logx s = true -> Forall (fun x => 0 < x) xs) ->
  eval sp (map Fin xs) (map Fin cs) = Ok (map Fin (map (fun x => within a b x (spline_sum us k cs (coord s x))) xs)).
Proof.
  intros Hs HR Hk Hn HM HU HT HC HX. destruct (made _ _ _ _ _ _ _ _ _ HM HR) as (K1 & K2 & K3 & K4 & K5 & K6 & K7). assert (LU : length us = (n + k)%nat) by (rewrite <- K6, HU, map_length; auto).
  assert (NK : s <> KBasis) by (destruct Hs as [->| ->]; discriminate). assert (HY : logy s = false) by (destruct Hs as [->| ->]; auto).
  unfold eval. rewrite project_other by (rewrite K1; auto). unfold bases. rewrite K1, K2, K3, K4, K5, HU. unfold project_raw. rewrite einsum_design by (rewrite ?map_length; auto). cbn [rbind]. rewrite HY, norm_off by auto. cbn [rbind].
  rewrite map_mul_1. apply (f_equal Ok). rewrite !map_map. apply map_ext_in. intros x Hx. rewrite (column_value s us k n a b x); auto.
  - rewrite map2_fin, nsum_fin. apply (f_equal Fin). subst n. rewrite within_sum. unfold spline_sum. destruct Hs as [->| ->]; reflexivity.
  - intros L. specialize (HX L). rewrite Forall_forall in HX. auto.
Qed.

Lemma log_value s n k knots interior a b sp us cs xs : logy s = true -> valid_range s a b -> (1 <= k)%nat -> (1 <= n)%nat ->
  make_spline s n k knots interior (Fin a) (Fin b) false = Ok sp -> sp_knots sp = map Fin us -> spaced_knots us -> length cs = n -> (logx s = true -> Forall (fun x => 0 <= x) xs) ->
  Forall (fun x => a <= x <= b -> - FMAX < spline_sum us k cs (coord s x)) xs ->
  eval sp (map Fin xs) (map Fin cs) = Ok (map Fin (map (fun x => within a b x (exp (spline_sum us k cs (coord s x)))) xs)).
Proof.
  intros Hs HR Hk Hn HM HU HT HC HX HF. pose proof HM as HM0. destruct (made _ _ _ _ _ _ _ _ _ HM HR) as (K1 & K2 & K3 & K4 & K5 & K6 & K7). assert (LU : length us = (n + k)%nat) by (rewrite <- K6, HU, map_length; auto).
  assert (NK : s <> KBasis) by (intros ->; discriminate).
  assert (EV : forall ys, eval sp ys (map Fin cs) = Ok (map (fun x => fexp (log_fix (nsum (map2 nmul (column s (map Fin us) k n (Fin (coord s a)) (Fin (coord s b)) x) (map Fin cs))))) ys)).
  { intros ys. unfold eval. rewrite project_other by (rewrite K1; auto). unfold bases. rewrite K1, K2, K3, K4, K5, HU. unfold project_raw. rewrite einsum_design by (rewrite ?map_length; auto). cbn [rbind]. rewrite Hs, norm_off by auto. cbn [rbind].
    rewrite map_mul_1, map_map. reflexivity. }
  rewrite EV. apply (f_equal Ok). rewrite !map_map. apply map_ext_in. intros x Hx. unfold within.
  destruct (Rleb a x && Rleb x b)%bool eqn:E.
  - apply andb_true_iff in E as [E1 E2]. apply Rleb_true in E1, E2.
    assert (P : logx s = true -> 0 < x) by (intros L; destruct HR as [_ HR]; specialize (HR L); lra).
    assert (CV : column s (map Fin us) k n (Fin (coord s a)) (Fin (coord s b)) (Fin x) = map Fin (map (fun i => Bspline (fun m => nth m us 0) k i (coord s x)) (seq 0 n))).
    { unfold column. rewrite map_map. apply map_ext_in. intros i Hi. apply in_seq in Hi. rewrite (basis_value_in s us k); [reflexivity|auto|auto|auto|lia|].
      pose proof (proj1 (in_coord s a b x HR P) (conj E1 E2)) as IC. unfold coord in *. destruct (logx s); auto. }
    rewrite CV, map2_fin, nsum_fin. subst n. rewrite sum_by_index. fold (spline_sum us k cs (coord s x)). cbn [log_fix fexp].
    rewrite Forall_forall in HF. rewrite Rleb_f by (apply HF; auto). reflexivity.
  - assert (OX : x < a \/ b < x).
    { destruct (Rleb a x) eqn:E1; [|left; apply Rleb_false; auto]. right. cbn in E. apply Rleb_false. auto. }
    pose proof (out_zero_any s n k knots interior a b sp (map Fin cs) x Hs HR Hn ltac:(rewrite map_length; auto) HM OX) as OZ.
    assert (PX : logx s = true -> 0 <= x) by (intros L; specialize (HX L); rewrite Forall_forall in HX; auto).
    specialize (OZ PX). rewrite EV in OZ. cbn [map] in OZ. injection OZ as OZ. exact OZ.
Qed.

Lemma basis_value_sum n k knots interior a b sp us cs xs : a < b -> (1 <= k)%nat -> (1 <= n)%nat ->
  make_spline KBasis n k knots interior (Fin a) (Fin b) false = Ok sp -> sp_knots sp = map Fin us -> spaced_knots us -> length cs = n -> Rlsum cs <> 0 ->
  eval sp (map Fin xs) (map Fin cs) = Ok (map Fin (map (fun x => within a b x (mspline_sum us k cs x / Rlsum cs)) xs)).
Proof.
  intros HAB Hk Hn HM HU HT HC HS. assert (HR : valid_range KBasis a b) by (split; [auto|discriminate]).
  destruct (made _ _ _ _ _ _ _ _ _ HM HR) as (K1 & K2 & K3 & K4 & K5 & K6 & K7). assert (LU : length us = (n + k)%nat) by (rewrite <- K6, HU, map_length; auto).
  unfold eval, project. rewrite K1, nsum_fin.
  assert (EC : map (fun c => ndiv c (Fin (Rlsum cs))) (map Fin cs) = map Fin (map (fun c => c / Rlsum cs) cs)).
  { rewrite !map_map. apply map_ext. intros c. apply ndiv_fin; auto. }
  rewrite EC. set (c' := map (fun c => c / Rlsum cs) cs). assert (LC : length c' = n) by (unfold c'; rewrite map_length; auto).
  unfold bases. rewrite K1, K2, K3, K4, K5, HU. rewrite einsum_design by (rewrite ?map_length; auto). cbn [rbind]. rewrite norm_off by auto. cbn [rbind].
  rewrite map_mul_1. apply (f_equal Ok). rewrite !map_map. apply map_ext_in. intros x Hx. rewrite (column_value KBasis us k n a b x); auto; [|discriminate].
  rewrite map2_fin, nsum_fin. apply (f_equal Fin). rewrite <- LC. rewrite within_sum. rewrite LC, <- HC. apply (f_equal (within a b x)). unfold mspline_sum, c'.
  set (S := Rlsum cs) in *. clear c' LC EC. clearbody S. assert (G : forall l, Rlsum (map (fun i => nth i (map (fun c => c / S) cs) 0 * Mspline us k i x) l) = Rlsum (map (fun i => nth i cs 0 * Mspline us k i x) l) / S).
  { induction l as [|j l IH]; cbn [map Rlsum fold_right]; [unfold Rlsum; cbn; unfold Rdiv; ring|]. unfold Rlsum in *. cbn [fold_right map]. rewrite IH.
    assert (E : nth j (map (fun c => c / S) cs) 0 = nth j cs 0 / S).
    { replace 0 with (0 / S) at 1 by (unfold Rdiv; ring). apply (map_nth (fun c => c / S)). }
    rewrite E. field. auto. }
  apply G.
Qed.

(** normalisation, any class and any knots: the same values divided by their trapezoid sum on the grid *)
Lemma normalised_value s n k knots interior a b sp sp0 cs gs vs xs ys :
  make_spline s n k knots interior a b true = Ok sp -> make_spline s n k knots interior a b false = Ok sp0 -> (1 <= n)%nat ->
  sp_grid sp = map Fin gs -> eval sp0 (map Fin gs) cs = Ok (map Fin vs) -> trapezoid gs vs <> 0 -> eval sp0 xs cs = Ok ys ->
  eval sp xs cs = Ok (map (fun y => nmul y (Fin (/ trapezoid gs vs))) ys).
Proof.
  intros H1 H0 Hn HG HE HT HY. destruct (unit_integral _ _ _ _ _ _ _ _ _ _ _ _ H1 H0 Hn HG HE HT) as (ps & E1 & _ & EP & _).
  destruct (make_inv _ _ _ _ _ _ _ _ _ H1) as (ks & lo & hi & grid & vols & LK & -> & _ & _ & _ & _ & H0').
  destruct (H0' false) as (g' & v' & E0). rewrite H0 in E0. injection E0 as ->. clear H0'. cbv iota in *.
  assert (NZ : exists v, In v vs /\ v <> 0).
  { destruct (Forall_Exists_dec (fun v => v = 0) (fun v => Req_EM_T v 0) vs) as [A|A]; [|apply Exists_exists in A; exact A].
    exfalso. apply HT. replace vs with (map (fun v => 0 * v) vs); [rewrite trapezoid_scal; ring|].
    clear -A. induction A as [|v l Hv _ IH]; cbn; [auto|]. rewrite IH, Hv. f_equal. ring. }
  set (I := trapezoid gs vs) in *. clearbody I.
  assert (ST : exists c' raw, forall nrm g gb vo rows, project (Spline s n k lo hi ks nrm g gb vo) rows cs =
    do p <- raw rows ; do q <- spline_norm (Spline s n k lo hi ks nrm g gb vo) c' ; Ok (map (fun v => nmul v q) p)).
  { destruct (kind_cases s) as [->|NK].
    - exists (map (fun c => ndiv c (nsum cs)) cs), (fun rows => einsum rows (map (fun c => ndiv c (nsum cs)) cs)). reflexivity.
    - exists cs, (fun rows => project_raw s rows cs). intros. rewrite project_other; auto. }
  destruct ST as (c' & raw & ST). unfold eval, bases in *. cbn [sp_kind sp_knots sp_order sp_N sp_lo sp_hi] in *. rewrite ST in *.
  destruct (raw (design s ks k n lo hi (map Fin gs))) as [p|] eqn:ER; [|discriminate]. destruct (raw (design s ks k n lo hi xs)) as [q|] eqn:EQ; [|discriminate]. cbn [rbind] in *.
  rewrite norm_off in HE, HY by reflexivity. cbn [rbind] in HE, HY. rewrite map_mul_1 in HE, HY. injection HE as ->. injection HY as ->.
  destruct (spline_norm _ c') as [nr|] eqn:EN; [|discriminate]. cbn [rbind] in *. injection E1 as E1. subst ps.
  destruct NZ as (v & IV & NV).
  assert (EV : nmul (Fin v) nr = Fin (/ I * v)).
  { clear -E1 IV. rewrite !map_map in E1. induction vs as [|w l IH]; [destruct IV|]. cbn [map] in E1. injection E1 as E1 E2. destruct IV as [->|IV]; auto. }
  assert (EQ2 : nr = Fin (/ I)).
  { destruct nr as [r| | |]; cbn in EV; try discriminate.
    - injection EV as EV. apply (f_equal Fin). apply (Rmult_eq_reg_l v); auto. rewrite EV. ring.
    - unfold sinf in EV. repeat destruct (Rltb _ _) in EV; discriminate.
    - unfold sinf in EV. repeat destruct (Rltb _ _) in EV; discriminate. }
  rewrite EQ2. reflexivity.
Qed.
