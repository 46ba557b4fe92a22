(** Log-y splines with default knots are densities; gauge freedom; out-of-range values. *)
From Verif Require Export PBSplineProj SpecSpline.
Open Scope R_scope.

(** ** normalisation grid of a real range *)
Lemma grid_real s n k kn0 int a b sp : make_spline s n k kn0 int (Fin a) (Fin b) true = Ok sp -> valid_range s a b ->
  sp_grid sp = map Fin (rlinspace a b (grid_size s)).
Proof.
  intros H [HAB HL]. destruct (make_inv _ _ _ _ _ _ _ _ _ H) as (ks & lo & hi & grid & vols & LK & -> & EG & _ & EL & EH & _).
  cbn [sp_grid]. rewrite (EG eq_refl). subst lo hi. pose proof (grid_size_pos s).
  destruct (logx s); [specialize (HL eq_refl)|].
  - rewrite !nlog_fin by lra. rewrite !nexp_fin, !exp_ln by lra. apply nlinspace_fin. auto.
  - apply nlinspace_fin. auto.
Qed.

(** ** convex combinations *)
Lemma map2_comm_sum a b : Rlsum (map2 Rmult a b) = Rlsum (map2 Rmult b a).
Proof. revert b. induction a as [|x a IH]; intros [|y b]; cbn; auto. rewrite IH. ring. Qed.
Lemma convex_gt bs cs m : length bs = length cs -> (forall b, In b bs -> 0 <= b) -> Rlsum bs = 1 -> (forall c, In c cs -> m < c) ->
  m < Rlsum (map2 Rmult bs cs).
Proof.
  intros HL HB HS HC. cut (forall bs cs, length bs = length cs -> (forall b, In b bs -> 0 <= b) -> (forall c, In c cs -> m < c) ->
    m * Rlsum bs <= Rlsum (map2 Rmult bs cs) /\ (0 < Rlsum bs -> m * Rlsum bs < Rlsum (map2 Rmult bs cs))).
  { intros G. destruct (G bs cs HL HB HC) as [_ G2]. rewrite HS in G2. lra. }
  clear. induction bs as [|x bs IH]; intros [|c cs] HL HB HC; cbn in *; try discriminate; [lra|].
  injection HL as HL. destruct (IH cs HL ltac:(auto) ltac:(auto)) as [G1 G2]. pose proof (HB x (or_introl eq_refl)) as Bx. pose proof (HC c (or_introl eq_refl)) as Cx.
  split; [nra|]. intros P. destruct (Req_dec x 0) as [->|N]; [specialize (G2 ltac:(lra)); lra|]. nra.
Qed.
Lemma shift_sum bs cs d : length bs = length cs -> Rlsum (map2 Rmult bs (map (fun c => c + d) cs)) = Rlsum (map2 Rmult bs cs) + d * Rlsum bs.
Proof. revert cs. induction bs as [|x bs IH]; intros [|c cs] H; cbn in *; try discriminate; [ring|]. rewrite IH by lia. ring. Qed.
Lemma scale_sum bs cs d : Rlsum (map2 Rmult bs (map (fun c => d * c) cs)) = d * Rlsum (map2 Rmult bs cs).
Proof. revert cs. induction bs as [|x bs IH]; intros [|c cs]; cbn in *; try ring. rewrite IH. ring. Qed.

Section Default.
Variables (s : skind) (n k : nat) (a b : R).
Hypothesis HS : logy s = true.
Hypothesis HK : (2 <= k <= n)%nat.
Hypothesis HR : valid_range s a b.
Hypothesis HD : 1 / 10 ^ 6 <= (coord s b - coord s a) / INR (n + 1 - k).
Let ts := uniform (coord s a) (coord s b) n k.
Definition colR (x : R) : list R := map (fun i => Bspline (fun j => nth j ts 0) k i (coord s x)) (seq 0 n).
(** log of the unnormalised spline *)
Definition logval (x : R) (c : list R) : R := Rlsum (map2 Rmult (colR x) c).

Lemma col_in x : a <= x <= b -> column s (map Fin ts) k n (Fin (coord s a)) (Fin (coord s b)) (Fin x) = map Fin (colR x).
Proof.
  intros HX. unfold column, colR. rewrite map_map. apply map_ext_in. intros i Hi. apply in_seq in Hi. destruct HR as [HAB HL].
  unfold coord in *. rewrite (basis_value_in s ts k); [reflexivity| | |lia| |].
  - apply uniform_spaced; auto; lia || apply coord_lt; auto.
  - intros ->. discriminate.
  - unfold ts. rewrite uniform_length. lia.
  - destruct (logx s); auto. specialize (HL eq_refl). repeat split; [lra|apply ln_le'; lra|apply ln_le'; lra].
Qed.
Lemma colR_sum x : a <= x <= b -> Rlsum (colR x) = 1.
Proof.
  intros HX. apply uniform_unity; [lia|apply coord_lt; auto|auto| |left; lia].
  destruct HR as [HAB HL]. unfold coord. destruct (logx s); auto. specialize (HL eq_refl). split; apply ln_le'; lra.
Qed.
Lemma colR_nonneg x v : In v (colR x) -> 0 <= v.
Proof.
  intros H. apply in_map_iff in H as (i & <- & Hi). apply in_seq in Hi. apply Bspline_nonneg. intros j Hj.
  unfold ts. rewrite uniform_step by lia. pose proof (step_pos (coord s a) (coord s b) n k ltac:(lia) (coord_lt s a b HR)). lra.
Qed.
Lemma colR_length x : length (colR x) = n.
Proof. unfold colR. rewrite map_length, seq_length. auto. Qed.

Lemma in_value x c : a <= x <= b -> length c = n -> (forall v, In v c -> - FMAX < v) ->
  fexp (log_fix (nsum (map2 nmul (column s (map Fin ts) k n (Fin (coord s a)) (Fin (coord s b)) (Fin x)) (map Fin c)))) = Fin (exp (logval x c)).
Proof.
  intros HX HC HV. rewrite col_in by auto. rewrite map2_fin, nsum_fin. cbn [log_fix fexp].
  rewrite Rleb_f; [reflexivity|]. apply convex_gt; [rewrite colR_length; auto|apply colR_nonneg|apply colR_sum; auto|auto].
Qed.

(** every entry of an out-of-range column is -inf or NaN *)
Lemma col_out x : (a <= x <= b -> False) -> forall v, In v (column s (map Fin ts) k n (Fin (coord s a)) (Fin (coord s b)) (Fin x)) -> v = NInf \/ v = NaN.
Proof.
  intros HX v Hv. apply in_map_iff in Hv as (i & <- & Hi). apply in_seq in Hi. destruct HR as [HAB HL]. unfold basis_value.
  assert (HO : forall u w, u < coord s a \/ coord s b < u -> oob_where (Fin (coord s a)) (Fin (coord s b)) (Fin u) NInf w = NInf).
  { intros u w Hu. unfold oob_where, ngt. cbn [nlt]. destruct Hu as [Hu|Hu]; [rewrite (Rltb_t u) by auto|rewrite (Rltb_t (coord s b)) by auto; rewrite orb_true_r]; reflexivity. }
  destruct s; try discriminate; cbn [logx] in *.
  - left. apply HO. unfold coord. cbn [logx]. destruct (Rlt_dec x a); [left; auto|right]. apply Rnot_le_lt. intros L. apply HX. lra.
  - specialize (HL eq_refl). destruct (Rlt_dec 0 x) as [P|P].
    + left. rewrite nlog_fin by auto. apply HO. unfold coord. cbn [logx].
      destruct (Rlt_dec x a); [left; apply ln_increasing; auto|right]. apply ln_increasing; [lra|]. apply Rnot_le_lt. intros L. apply HX. lra.
    + destruct (Req_dec x 0) as [->|NZ].
      * left. rewrite nlog_zero. reflexivity.
      * right. unfold nlog. rewrite Rltb_f, Reqb_f by lra. cbn [oob_where nlt ngt]. unfold oob_where, ngt. cbn [nlt orb].
        unfold raw_basis. destruct k as [|[|k']]; [lia|lia|]. rewrite !kn_fin by (unfold ts; rewrite uniform_length; lia).
        cbn [basis]. rewrite !kn_fin by (unfold ts; rewrite uniform_length; lia). unfold ts. rewrite !uniform_nth by lia. rewrite !nsub_fin.
        pose proof (step_pos (coord KLogXLogY a) (coord KLogXLogY b) n (S (S k')) ltac:(lia) (coord_lt KLogXLogY a b (conj HAB (fun _ => HL)))) as SP.
        set (d := (coord KLogXLogY b - coord KLogXLogY a) / INR (n + 1 - S (S k'))) in *.
        cbn [nlt]. rewrite Rltb_f.
        -- cbn [nsub nadd nmul ndiv]. unfold ndiv. destruct (Reqb _ _); [unfold sinf; repeat destruct (Rltb _ _)|]; reflexivity.
        -- rewrite plus_INR, !S_INR. assert (0 <= INR k') by apply pos_INR. nra.
Qed.
Lemma ninf_mul c v : v = NInf \/ v = NaN -> forall r, nmul v c <> Fin r.
Proof. intros [->| ->] r; [|discriminate]. destruct c; cbn; try discriminate. unfold sinf. repeat destruct (Rltb _ _); cbn; discriminate. Qed.
Lemma out_raw x cs : (a <= x <= b -> False) -> length cs = n ->
  fexp (log_fix (nsum (map2 nmul (column s (map Fin ts) k n (Fin (coord s a)) (Fin (coord s b)) (Fin x)) cs))) = Fin 0.
Proof.
  intros HX HC. assert (NF : forall r, nsum (map2 nmul (column s (map Fin ts) k n (Fin (coord s a)) (Fin (coord s b)) (Fin x)) cs) <> Fin r).
  { intros r HF. apply nsum_fin_inv in HF as [q HF]. apply map2_nmul_fin_inv in HF as (p & _ & HP & _); [|rewrite column_length; auto].
    assert (I0 : In (basis_value s (map Fin ts) k (Fin (coord s a)) (Fin (coord s b)) 0 (Fin x)) (map Fin p)).
    { rewrite <- HP. unfold column. apply (in_map (fun i => basis_value s _ k _ _ i _)). apply in_seq. lia. }
    destruct (col_out x HX _ ltac:(rewrite HP; exact I0)) as [E|E]; rewrite E in I0; apply in_map_iff in I0 as (z & Ez & _); discriminate. }
  destruct (nsum _) as [r| | |]; [exfalso; eapply NF; reflexivity| | |]; cbn [log_fix fexp]; rewrite Rleb_t by lra; reflexivity.
Qed.

Let val (c : list R) (x : R) : R := if (Rleb a x && Rleb x b)%bool then exp (logval x c) else 0.
Lemma raw_value x c : length c = n -> (forall v, In v c -> - FMAX < v) ->
  fexp (log_fix (nsum (map2 nmul (column s (map Fin ts) k n (Fin (coord s a)) (Fin (coord s b)) (Fin x)) (map Fin c)))) = Fin (val c x).
Proof.
  intros HC HV. unfold val. destruct (Rleb a x) eqn:E1; [destruct (Rleb x b) eqn:E2|]; cbn [andb].
  - apply Rleb_true in E1, E2. rewrite in_value; auto.
  - apply Rleb_false in E2. rewrite out_raw; [auto|lra|rewrite map_length; auto].
  - apply Rleb_false in E1. rewrite out_raw; [auto|lra|rewrite map_length; auto].
Qed.

Lemma s_other : s <> KBasis.
Proof. intros E. pose proof HS as H. rewrite E in H. discriminate. Qed.
Let gs := rlinspace a b (grid_size s).

Lemma raw_list xs c : length c = n -> (forall v, In v c -> - FMAX < v) ->
  project_raw s (design s (map Fin ts) k n (Fin (coord s a)) (Fin (coord s b)) (map Fin xs)) (map Fin c) = Ok (map Fin (map (val c) xs)).
Proof.
  intros HC HV. unfold project_raw. rewrite einsum_design by (try lia; rewrite map_length; auto). cbn [rbind]. rewrite HS.
  apply (f_equal Ok). rewrite !map_map. apply map_ext. intros x. apply raw_value; auto.
Qed.

Lemma gs_int c : length c = n -> (forall v, In v c -> - FMAX < v) -> 0 < trapezoid gs (map (val c) gs).
Proof.
  intros HC HV. destruct HR as [HAB HL].
  assert (P : forall y, In y (map (val c) gs) -> 0 < y).
  { intros y Hy. apply in_map_iff in Hy as (x & <- & Hx). apply rlinspace_range in Hx; [|lra]. unfold val. rewrite !Rleb_t by lra. cbn. apply exp_pos. }
  apply trapezoid_pos.
  - apply rlinspace_increasing; auto.
  - unfold gs. rewrite rlinspace_length. apply grid_size_pos.
  - rewrite map_length. auto.
  - intros y Hy. left. auto.
  - intros y Hy. apply P. destruct (map (val c) gs); [destruct Hy|right; auto].
Qed.

Lemma log_density c : length c = n -> (forall v, In v c -> - FMAX < v) ->
  exists sp I, make_spline s n k None None (Fin a) (Fin b) true = Ok sp /\ 0 < I /\ I = trapezoid gs (map (val c) gs) /\
    (forall xs, eval sp (map Fin xs) (map Fin c) = Ok (map Fin (map (fun x => / I * val c x) xs))) /\
    trapezoid gs (map (fun x => / I * val c x) gs) = 1.
Proof.
  intros HC HV. destruct (make_default s n k a b true ltac:(lia) HR) as (sp & E & K1 & K2 & K3 & K4 & K5 & K6 & K7).
  exists sp, (trapezoid gs (map (val c) gs)). pose proof (gs_int c HC HV) as PI. split; auto. split; auto. split; auto. split.
  - intros xs. unfold eval. rewrite project_other by (rewrite K1; apply s_other). rewrite norm_other by (rewrite ?K1; auto using s_other).
    destruct (make_inv _ _ _ _ _ _ _ _ _ E) as (ks & lo & hi & grid & vols & LK & ES & EG & _ & EL & EH & _).
    pose proof (grid_real _ _ _ _ _ _ _ _ E HR) as GR. rewrite GR. fold gs.
    assert (GB : sp_grid_bases sp = design s (map Fin ts) k n (Fin (coord s a)) (Fin (coord s b)) (map Fin gs)).
    { rewrite ES in *. cbn [sp_grid_bases sp_grid sp_lo sp_hi sp_knots] in *. rewrite GR, K4, K5, K6. reflexivity. }
    rewrite GB. unfold bases. rewrite K1, K2, K3, K4, K5, K6. fold ts. rewrite !raw_list by auto. cbn [rbind].
    rewrite ntrapz_fin, div_mul_map by lra. rewrite !map_map. reflexivity.
  - rewrite <- (map_map (val c) (fun y => / _ * y)), trapezoid_scal. apply Rinv_l. lra.
Qed.

(** C28 for the log-y classes: a positive density on the grid with unit integral, zero outside *)
Lemma log_unit c : length c = n -> (forall v, In v c -> - FMAX < v) ->
  exists sp f, make_spline s n k None None (Fin a) (Fin b) true = Ok sp /\ sp_grid sp = map Fin gs /\
    (forall xs, eval sp (map Fin xs) (map Fin c) = Ok (map Fin (map f xs))) /\
    (forall x, a <= x <= b -> 0 < f x) /\ (forall x, x < a \/ b < x -> f x = 0) /\ trapezoid gs (map f gs) = 1.
Proof.
  intros HC HV. destruct (log_density c HC HV) as (sp & I & E & PI & _ & EV & ET). exists sp, (fun x => / I * val c x).
  split; auto. split; [apply (grid_real _ _ _ _ _ _ _ _ E HR)|]. split; auto. pose proof (Rinv_0_lt_compat _ PI). split; [|split; [|auto]].
  - intros x HX. unfold val. rewrite !Rleb_t by lra. cbn. apply Rmult_lt_0_compat; auto. apply exp_pos.
  - intros x HX. unfold val. destruct HX; [rewrite (Rleb_f a) by auto|rewrite (Rleb_f x) by auto; rewrite andb_false_r]; cbn; ring.
Qed.

(** C29 for the log-y classes *)
Lemma log_gauge c d sp : length c = n -> (forall v, In v c -> - FMAX < v /\ - FMAX < v + d) ->
  make_spline s n k None None (Fin a) (Fin b) true = Ok sp ->
  forall xs, eval sp (map Fin xs) (map Fin (map (fun v => v + d) c)) = eval sp (map Fin xs) (map Fin c).
Proof.
  intros HC HV E xs. destruct (log_density c HC) as (sp1 & I1 & E1 & P1 & V1 & L1 & _); [intros; apply HV; auto|].
  destruct (log_density (map (fun v => v + d) c)) as (sp2 & I2 & E2 & P2 & V2 & L2 & _); [rewrite map_length; auto| |].
  { intros v Hv. apply in_map_iff in Hv as (w & <- & Hw). apply HV; auto. }
  rewrite E in E1, E2. injection E1 as <-. injection E2 as <-. rewrite L1, L2. apply (f_equal (fun l => Ok (map Fin l))).
  assert (SV : forall x, val (map (fun v => v + d) c) x = exp d * val c x).
  { intros x. unfold val. destruct (Rleb a x) eqn:E1; [destruct (Rleb x b) eqn:E2|]; cbn; try ring.
    apply Rleb_true in E1, E2. unfold logval. rewrite shift_sum by (rewrite colR_length; auto). rewrite colR_sum by auto. rewrite exp_plus. ring_simplify. rewrite Rmult_1_r. ring. }
  assert (I2 = exp d * I1).
  { rewrite V1, V2, <- trapezoid_scal, map_map. f_equal. apply map_ext. apply SV. }
  apply map_ext. intros x. rewrite SV. subst I2. rewrite H. pose proof (exp_pos d). field. split; lra.
Qed.

(** C30 *)
Lemma out_zero_unnormalised cs : length cs = n ->
  exists sp, make_spline s n k None None (Fin a) (Fin b) false = Ok sp /\
  forall x, x < a \/ b < x -> eval sp (Fin x :: nil) cs = Ok (Fin 0 :: nil).
Proof.
  intros HC. destruct (make_default s n k a b false ltac:(lia) HR) as (sp & E & K1 & K2 & K3 & K4 & K5 & K6 & K7).
  exists sp. split; auto. intros x HX. unfold eval. rewrite project_other by (rewrite K1; apply s_other). rewrite norm_off by auto.
  unfold bases. rewrite K1, K2, K3, K4, K5, K6. fold ts. unfold project_raw. rewrite einsum_design by (auto; lia). cbn [rbind map]. rewrite HS. cbn [map].
  rewrite out_raw by (auto; lra). rewrite nmul_1_r. reflexivity.
Qed.
End Default.
