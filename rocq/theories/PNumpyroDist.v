(** PowerlawRedshift, BSplineDistribution and PSplineCoeficientPrior. *)
From Verif Require Export Calc PNumpyro PNumpyroGrid.
From Verif Require Export Spec.
Open Scope R_scope.

Lemma trapezoid_pos_some xs : forall ys, increasing xs -> (2 <= length xs)%nat -> length ys = length xs -> (forall y, In y ys -> 0 <= y) -> (exists y, In y ys /\ 0 < y) -> 0 < trapezoid xs ys.
Proof.
  induction xs as [|x0 xs IH]; intros ys Hx H2 Hl Hp (y & Hy & Hpos); [cbn in H2; lia|]. destruct ys as [|y0 ys]; [discriminate|].
  destruct xs as [|x1 xs]; [cbn in H2; lia|]. destruct ys as [|y1 ys]; [discriminate|]. destruct Hx as [L Hx].
  change (0 < (x1 - x0) * (y0 + y1) / 2 + trapezoid (x1 :: xs) (y1 :: ys)).
  assert (P0 : 0 <= y0) by (apply Hp; cbn; auto). assert (P1 : 0 <= y1) by (apply Hp; cbn; auto).
  assert (T : 0 <= trapezoid (x1 :: xs) (y1 :: ys)) by (apply trapezoid_nonneg; auto; intros; apply Hp; right; auto).
  destruct Hy as [->|[->|Hy]]; [nra|nra|]. destruct xs as [|x2 xs]; [destruct ys; [destruct Hy|discriminate]|].
  assert (0 < trapezoid (x1 :: x2 :: xs) (y1 :: ys)); [|nra]. apply IH; auto; [cbn; lia|intros; apply Hp; right; auto|exists y; split; auto; right; auto].
Qed.

Lemma last_nth {A} (l : list A) d : l <> [] -> last l d = nth (length l - 1) l d.
Proof.
  induction l as [|a l IH]; intros H; [congruence|]. destruct l as [|b l]; [reflexivity|].
  change (last (b :: l) d = nth (length (b :: l) - 0) (a :: b :: l) d). rewrite IH by discriminate. rewrite Nat.sub_0_r. change (length (b :: l)) with (S (length l)). rewrite Nat.sub_succ, Nat.sub_0_r. reflexivity.
Qed.
(** ** PowerlawRedshift *)
Section PLZ.
Variables (lamb maximum : R) (zs dV : list R).
Hypothesis Hzs : increasing zs.
Hypothesis Hz1 : forall z, In z zs -> -1 < z.
Hypothesis H2 : (2 <= length zs)%nat.
Hypothesis Hl : length dV = length zs.
Hypothesis HdV : forall v, In v dV -> 0 <= v.
Hypothesis HdVs : exists v, In v dV /\ 0 < v.
Definition plz_raw : list R := map2 (fun d z => d * Rpower (1 + z) (lamb - 1)) dV zs.
Definition plz_N : R := trapezoid zs plz_raw.
Definition plz_p : list R := map (fun p => p / plz_N) plz_raw.
Lemma raw_len : length plz_raw = length zs. Proof. unfold plz_raw. rewrite map2_length. lia. Qed.
Lemma map2_nth {A B C} (f : A -> B -> C) xs : forall ys i a b c, length ys = length xs -> (i < length xs)%nat -> nth i (map2 f xs ys) c = f (nth i xs a) (nth i ys b).
Proof.
  induction xs as [|x xs IH]; intros ys i a b c L Hi; [cbn in Hi; lia|]. destruct ys as [|y ys]; [discriminate|]. destruct i as [|i]; [reflexivity|]. cbn [map2 nth]. apply IH; cbn [length] in *; lia.
Qed.
Lemma raw_nth i : (i < length zs)%nat -> nth i plz_raw 0 = nth i dV 0 * Rpower (1 + nth i zs 0) (lamb - 1).
Proof. intros Hi. unfold plz_raw. rewrite (map2_nth _ dV zs i 0 0) by lia. reflexivity. Qed.
Lemma raw_pos p : In p plz_raw -> 0 <= p.
Proof.
  intros Hp. apply (In_nth _ _ 0) in Hp. destruct Hp as (i & Hi & <-). rewrite raw_len in Hi. rewrite raw_nth by auto. apply Rmult_le_pos; [apply HdV, nth_In; lia|left; apply Rpower_pos].
Qed.
Lemma N_pos : 0 < plz_N.
Proof.
  apply trapezoid_pos_some; auto; [apply raw_len|apply raw_pos|]. destruct HdVs as (v & Hv & Pv). apply (In_nth _ _ 0) in Hv. destruct Hv as (i & Hi & E). exists (nth i plz_raw 0).
  split; [apply nth_In; rewrite raw_len; lia|]. rewrite raw_nth by lia. rewrite E. apply Rmult_lt_0_compat; auto. apply Rpower_pos.
Qed.
Lemma p_len : length plz_p = length zs. Proof. unfold plz_p. rewrite map_length. apply raw_len. Qed.
Lemma p_nonneg p : In p plz_p -> 0 <= p.
Proof. intros Hp. apply in_map_iff in Hp. destruct Hp as (q & <- & Hq). apply Rdiv_le_0_compat; [apply raw_pos; auto|apply N_pos]. Qed.
Lemma p_one : trapezoid zs plz_p = 1.
Proof. unfold plz_p. rewrite trapezoid_div. change (trapezoid zs plz_raw) with plz_N. pose proof N_pos. field. lra. Qed.
Lemma p_nth i : (i < length zs)%nat -> nth i plz_p 0 = nth i dV 0 * Rpower (1 + nth i zs 0) (lamb - 1) / plz_N.
Proof.
  intros Hi. unfold plz_p. rewrite (nth_indep _ 0 (0 / plz_N)) by (rewrite map_length, raw_len; auto). rewrite (map_nth (fun p => p / plz_N)), raw_nth by auto. reflexivity.
Qed.
Lemma make_plz_fin : make_plz (Fin lamb) (Fin maximum) (map Fin zs) (map Fin dV) =
  Ok (PLZ (Fin lamb) (Fin maximum) (map Fin zs) (map Fin dV) (map Fin plz_p) (Fin plz_N) (map Fin (cdf_table zs plz_p))).
Proof.
  unfold make_plz.
  assert (E : map2 (fun d z => nmul d (npow (nadd (Fin 1) z) (nsub (Fin lamb) (Fin 1)))) (map Fin dV) (map Fin zs) = map Fin plz_raw).
  { unfold plz_raw. rewrite map2_map, map_map2. apply (nth_ext _ _ NaN NaN); rewrite !map2_length; [reflexivity|]. intros i Hi.
    rewrite !(map2_nth _ dV zs i 0 0) by lia. rewrite nadd_fin, nsub_fin, npow_fin, nmul_fin; [reflexivity|]. assert (-1 < nth i zs 0) by (apply Hz1, nth_In; lia). lra. }
  rewrite E. rewrite ntrapz_fin. fold plz_N. pose proof N_pos.
  assert (E2 : map (fun p => ndiv p (Fin plz_N)) (map Fin plz_raw) = map Fin plz_p).
  { unfold plz_p. rewrite !map_map. apply map_ext. intros. apply ndiv_fin. lra. }
  rewrite E2. destruct (cdfgrid_fin plz_p zs) as (g & G1 & G2); rewrite ?p_len; auto. rewrite G1. cbn [rbind]. rewrite G2. reflexivity.
Qed.
Definition the_plz := PLZ (Fin lamb) (Fin maximum) (map Fin zs) (map Fin dV) (map Fin plz_p) (Fin plz_N) (map Fin (cdf_table zs plz_p)).
Lemma plz_lp i : (i < length zs)%nat -> nth i zs 0 <= maximum -> nexp (plz_log_prob the_plz (Fin (nth i zs 0))) = Fin (nth i plz_p 0).
Proof.
  intros Hi Hm. unfold plz_log_prob, the_plz. cbn [z_zs z_dV z_max z_lamb z_norm nle]. rewrite Rleb_t by auto. cbn [nwhere]. rewrite ninterp_fin by auto. rewrite rinterp_node by auto.
  assert (-1 < nth i zs 0) by (apply Hz1, nth_In; lia). assert (0 <= nth i dV 0) by (apply HdV, nth_In; lia). pose proof N_pos. rewrite p_nth by auto.
  rewrite nadd_fin, nsub_fin. rewrite (nlog_fin (1 + nth i zs 0)), (nlog_fin plz_N) by lra. rewrite nmul_fin. destruct (Req_dec (nth i dV 0) 0) as [E|E].
  - rewrite E, nlog_zero. cbn. apply (f_equal Fin). field. lra.
  - rewrite nlog_fin by lra. rewrite nadd_fin, nsub_fin, nexp_fin. apply (f_equal Fin). unfold Rminus at 1. rewrite exp_plus, exp_plus, exp_Ropp, !exp_ln by lra. reflexivity.
Qed.
End PLZ.

Lemma redshift_unit lamb maximum zs dV : increasing zs -> (forall z, In z zs -> -1 < z) -> (2 <= length zs)%nat -> length dV = length zs ->
  (forall v, In v dV -> 0 <= v) -> (exists v, In v dV /\ 0 < v) -> last zs 0 <= maximum ->
  exists d ps, make_plz (Fin lamb) (Fin maximum) (map Fin zs) (map Fin dV) = Ok d /\ map (fun z => nexp (plz_log_prob d (Fin z))) zs = map Fin ps /\
    (forall p, In p ps -> 0 <= p) /\ trapezoid zs ps = 1.
Proof.
  intros Hz Hz1 H2 Hl Hv Hs Hm. exists (the_plz lamb maximum zs dV), (plz_p lamb zs dV). split; [apply make_plz_fin; auto|]. split.
  - apply (nth_ext _ _ NaN NaN); rewrite !map_length; [symmetry; apply p_len; auto|]. intros i Hi.
    rewrite (nth_indep _ NaN ((fun z => nexp (plz_log_prob (the_plz lamb maximum zs dV) (Fin z))) 0)) by (rewrite map_length; auto). rewrite (map_nth (fun z => nexp (plz_log_prob (the_plz lamb maximum zs dV) (Fin z)))).
    rewrite plz_lp; auto.
    + rewrite (nth_indep _ NaN (Fin 0)) by (rewrite map_length, p_len; auto). rewrite map_nth. reflexivity.
    + eapply Rle_trans; [|apply Hm]. destruct zs as [|z0 zs]; [cbn in Hi; lia|]. apply increasing_le_last; auto. apply nth_In. auto.
  - split; [apply p_nonneg; auto|apply p_one; auto].
Qed.
Lemma redshift_cdf lamb maximum h zs dV : uniform_grid h zs -> (forall z, In z zs -> -1 < z) -> (2 <= length zs)%nat -> length dV = length zs ->
  (forall v, In v dV -> 0 <= v) -> (exists v, In v dV /\ 0 < v) ->
  exists d F G, make_plz (Fin lamb) (Fin maximum) (map Fin zs) (map Fin dV) = Ok d /\ (forall z, plz_cdf d (Fin z) = Fin (F z)) /\
    (forall z w, z <= w -> F z <= F w) /\ (forall z, z <= hd 0 zs -> F z = 0) /\ (forall z, last zs 0 <= z -> F z = 1) /\
    (forall u, plz_sample d (Fin u) = Fin (G u) /\ hd 0 zs <= G u <= last zs 0).
Proof.
  intros U Hz1 H2 Hl Hv Hs. pose proof (uniform_increasing h zs U) as Hz.
  exists (the_plz lamb maximum zs dV), (fun z => rinterp z zs (cdf_table zs (plz_p lamb zs dV))), (fun u => rinterp u (cdf_table zs (plz_p lamb zs dV)) zs).
  destruct (cdf_table_mono h zs (plz_p lamb zs dV) U H2) as (M & M0 & M1); [apply p_len; auto|apply p_nonneg; auto|apply p_one; auto|].
  assert (Lc : length (cdf_table zs (plz_p lamb zs dV)) = length zs) by apply cdf_table_length. set (t := cdf_table zs (plz_p lamb zs dV)) in *.
  assert (Z0 : zs <> []) by (intros E; rewrite E in H2; cbn in H2; lia). assert (T0 : t <> []) by (intros E; rewrite E in Lc; cbn in Lc; lia).
  split; [apply make_plz_fin; auto|]. split; [intros z; apply ninterp_fin; auto|]. split; [intros; apply rinterp_mono_nd; auto|].
  split; [|split].
  - intros z Hzz. destruct zs as [|z0 zs']; [congruence|]. destruct t as [|t0 t']; [congruence|]. cbn [hd nth] in *. rewrite rinterp_left by auto. auto.
  - intros z Hzz. rewrite rinterp_right by auto. rewrite <- M1, <- Lc. rewrite (last_nth t 0) by auto. reflexivity.
  - intros u. split; [apply ninterp_nd; auto|]. apply rinterp_between_nd; auto. intros y Hy. destruct zs as [|z0 zs']; [congruence|]. split; [apply (increasing_hd_le z0 zs'); auto|apply increasing_le_last; auto].
Qed.
(** the tabulated cdf is not the integral of the density *)
Lemma redshift_cdf_wrong lamb maximum h zs dV : uniform_grid h zs -> (forall z, In z zs -> -1 < z) -> (3 <= length zs)%nat -> length dV = length zs ->
  (forall v, In v dV -> 0 <= v) -> (exists v, In v dV /\ 0 < v) -> last zs 0 <= maximum ->
  nth 0 dV 0 * Rpower (1 + nth 0 zs 0) (lamb - 1) <> nth 2 dV 0 * Rpower (1 + nth 2 zs 0) (lamb - 1) ->
  exists d ps F, make_plz (Fin lamb) (Fin maximum) (map Fin zs) (map Fin dV) = Ok d /\ map (fun z => nexp (plz_log_prob d (Fin z))) zs = map Fin ps /\
    plz_cdf d (Fin (nth 1 zs 0)) = Fin F /\ F <> prefix_integral zs ps 1.
Proof.
  intros U Hz1 H3 Hl Hv Hs Hm Hne. pose proof (uniform_increasing h zs U) as Hz. assert (H2 : (2 <= length zs)%nat) by lia.
  destruct (redshift_unit lamb maximum zs dV Hz Hz1 H2 Hl Hv Hs Hm) as (d & ps & E & P & _). rewrite make_plz_fin in E by auto. injection E as <-.
  assert (EP : ps = plz_p lamb zs dV).
  { apply (nth_ext _ _ 0 0). { apply (f_equal (@length num)) in P. rewrite !map_length in P. rewrite p_len by auto. auto. }
    intros i Hi. assert (Hi' : (i < length zs)%nat). { apply (f_equal (@length num)) in P. rewrite !map_length in P. lia. }
    apply (f_equal (fun l => nth i l NaN)) in P. rewrite (nth_indep (map Fin ps) NaN (Fin 0)), map_nth in P by (rewrite map_length; auto).
    rewrite (nth_indep _ NaN ((fun z => nexp (plz_log_prob (the_plz lamb maximum zs dV) (Fin z))) 0)) in P by (rewrite map_length; auto).
    rewrite (map_nth (fun z => nexp (plz_log_prob (the_plz lamb maximum zs dV) (Fin z)))) in P. rewrite plz_lp in P; auto.
    - injection P as <-. reflexivity.
    - eapply Rle_trans; [|apply Hm]. destruct zs as [|z0 zs']; [cbn in H3; lia|]. apply increasing_le_last; auto. apply nth_In. auto. }
  exists (the_plz lamb maximum zs dV), (plz_p lamb zs dV), (nth 1 (cdf_table zs (plz_p lamb zs dV)) 0).
  split; [apply make_plz_fin; auto|]. split; [rewrite <- EP; exact P|]. split.
  - unfold plz_cdf. cbn [the_plz z_zs z_cdfgrid]. rewrite ninterp_fin by auto. rewrite rinterp_node; auto. apply cdf_table_length.
  - rewrite cdf_table_nth by lia. rewrite (proj2 (Nat.eqb_neq 1 _)) by lia. rewrite (shift_prefix h) by (auto; try lia; apply p_len; auto).
    rewrite !prefix_S by (rewrite ?p_len by auto; lia). rewrite prefix_0. destruct U as (Hh & U). rewrite !U by lia. intros G.
    assert (G2 : h * (nth 2 (plz_p lamb zs dV) 0 - nth 0 (plz_p lamb zs dV) 0) = 0) by lra. apply Rmult_integral in G2. rewrite !p_nth in G2 by (auto; lia).
    pose proof (N_pos lamb zs dV Hz H2 Hl Hv Hs) as PN. destruct G2 as [G2|G2]; [lra|]. apply Hne.
    apply Rmult_eq_reg_r with (/ plz_N lamb zs dV); [unfold Rdiv in G2; lra|apply Rinv_neq_0_compat; lra].
Qed.
(** on an uneven grid it can exceed one *)
Lemma redshift_cdf_above_one : exists d, make_plz (Fin 1) (Fin 11) (map Fin [0; 10; 11]) (map Fin [0; 0; 2]) = Ok d /\ plz_cdf d (Fin 10) = Fin 10.
Proof.
  exists (the_plz 1 11 [0; 10; 11] [0; 0; 2]). assert (HI : increasing [0; 10; 11]) by (cbn; lra).
  assert (E : plz_p 1 [0; 10; 11] [0; 0; 2] = [0; 0; 2]).
  { unfold plz_p, plz_N, plz_raw. cbn [map2 map trapezoid]. replace (1 - 1) with 0 by ring. rewrite !Rpower_O by lra. repeat apply (f_equal2 cons); auto; field. }
  split.
  - apply make_plz_fin; auto; [intros z [<-|[<-|[<-|[]]]]; lra|cbn; lia|intros z [<-|[<-|[<-|[]]]]; lra|exists 2; cbn; split; [auto|lra]].
  - unfold plz_cdf, the_plz. cbn [z_zs z_cdfgrid]. rewrite ninterp_fin by auto. change 10 with (nth 1 [0; 10; 11] 0) at 1. rewrite rinterp_node by (cbn; auto). rewrite E. rewrite cdf_table_nth by (cbn; lia). cbn. apply (f_equal Fin). lra.
Qed.
(** a maximum below the end of the grid removes probability *)
Lemma redshift_truncated : exists d p0 p1, make_plz (Fin 1) (Fin 1) (map Fin [0; 2]) (map Fin [1; 1]) = Ok d /\
  nexp (plz_log_prob d (Fin 0)) = Fin p0 /\ nexp (plz_log_prob d (Fin 2)) = Fin p1 /\ trapezoid [0; 2] [p0; p1] < 1.
Proof.
  assert (HI : increasing [0; 2]) by (cbn; lra).
  assert (E : plz_p 1 [0; 2] [1; 1] = [/2; /2] /\ plz_N 1 [0; 2] [1; 1] = 2).
  { unfold plz_p, plz_N, plz_raw. cbn [map2 map trapezoid]. replace (1 - 1) with 0 by ring. rewrite !Rpower_O by lra. split; [repeat apply (f_equal2 cons); auto; field|field]. }
  destruct E as [E EN]. exists (the_plz 1 1 [0; 2] [1; 1]), (/2), (exp (- FMAX)).
  assert (A1 : forall z, In z [0; 2] -> -1 < z) by (intros z [<-|[<-|[]]]; lra). assert (A2 : forall v, In v [1; 1] -> 0 <= v) by (intros z [<-|[<-|[]]]; lra). assert (A3 : exists v, In v [1; 1] /\ 0 < v) by (exists 1; cbn; split; [auto|lra]).
  split; [apply make_plz_fin; auto; cbn; lia|]. split; [|split].
  - pose proof (plz_lp 1 1 [0; 2] [1; 1] HI A1 ltac:(cbn; lia) eq_refl A2 A3 0%nat ltac:(cbn; lia)) as P. cbn [nth] in P. rewrite P by lra. rewrite E. reflexivity.
  - unfold plz_log_prob, the_plz. cbn [z_zs z_dV z_max z_lamb z_norm nle]. rewrite Rleb_f by lra. reflexivity.
  - cbn [trapezoid]. assert (exp (- FMAX) < /2); [|lra]. pose proof FMAX_pos. assert (EL : exp (- FMAX) < exp (- ln 2)); [apply exp_increasing; pose proof (ln_lt_id 2 ltac:(lra)); assert (2 < FMAX) by (unfold FMAX; lra); lra|].
    rewrite (exp_Ropp (ln 2)), exp_ln in EL by lra. auto.
Qed.

(** ** BSplineDistribution *)
Section BSD.
Variables (cs grid : list R) (rows : list (list R)).
Hypothesis Hg : increasing grid.
Hypothesis H2 : (2 <= length grid)%nat.
Hypothesis Hc : length cs = length rows.
Hypothesis Hr : forall r, In r rows -> length r = length grid.
Definition bsd_l : list R := map (fun j => Rlsum (map2 Rmult cs (map (fun r => nth j r 0) rows))) (seq 0 (length grid)).
Definition bsd_N : R := trapezoid grid (map exp bsd_l).
Definition bsd_p : list R := map (fun l => exp l / bsd_N) bsd_l.
Lemma bl_len : length bsd_l = length grid. Proof. unfold bsd_l. rewrite map_length, seq_length. reflexivity. Qed.
Lemma bp_len : length bsd_p = length grid. Proof. unfold bsd_p. rewrite map_length. apply bl_len. Qed.
Lemma bN_pos : 0 < bsd_N.
Proof.
  apply trapezoid_pos_some; auto; [rewrite map_length; apply bl_len| |].
  - intros y Hy. apply in_map_iff in Hy. destruct Hy as (l & <- & _). left. apply exp_pos.
  - exists (nth 0 (map exp bsd_l) 0). assert (L : (0 < length (map exp bsd_l))%nat) by (rewrite map_length, bl_len; lia). split; [apply nth_In; auto|].
    rewrite (nth_indep _ 0 (exp 0)) by auto. rewrite map_nth. apply exp_pos.
Qed.
Lemma bp_nonneg p : In p bsd_p -> 0 <= p.
Proof. intros Hp. apply in_map_iff in Hp. destruct Hp as (q & <- & Hq). apply Rdiv_le_0_compat; [left; apply exp_pos|apply bN_pos]. Qed.
Lemma bp_one : trapezoid grid bsd_p = 1.
Proof. unfold bsd_p. rewrite <- (map_map exp (fun p => p / bsd_N)). rewrite trapezoid_div. change (trapezoid grid (map exp bsd_l)) with bsd_N. pose proof bN_pos. field. lra. Qed.
Definition the_bsd := BSD (map Fin grid) (map Fin bsd_l) (map Fin bsd_p) (Fin bsd_N) (map Fin (cdf_table grid bsd_p)).
Lemma make_bsd_fin : make_bsd (map Fin cs) (map Fin grid) (map (map Fin) rows) = Ok the_bsd.
Proof.
  unfold make_bsd. rewrite !map_length, Hc, Nat.eqb_refl. cbn [negb].
  assert (E : map (nan_to_num_gen NInf (Fin FMAX) (Fin (- FMAX))) (einsum_rows (map Fin cs) (map (map Fin) rows) (length grid)) = map Fin bsd_l).
  { unfold einsum_rows, bsd_l. rewrite !map_map. apply map_ext_in. intros j Hj. apply in_seq in Hj. rewrite map_map.
    rewrite (map_ext_in (fun r => nth j (map Fin r) NaN) (fun r => Fin (nth j r 0))).
    - rewrite <- (map_map (fun r => nth j r 0) Fin), ndot_fin. reflexivity.
    - intros r Hin. rewrite (nth_indep _ NaN (Fin 0)) by (rewrite map_length, Hr; auto; lia). apply map_nth. }
  rewrite E. assert (E1 : map nexp (map Fin bsd_l) = map Fin (map exp bsd_l)) by (rewrite !map_map; apply map_ext; intros; apply nexp_fin).
  rewrite E1, ntrapz_fin. fold bsd_N. pose proof bN_pos.
  assert (E2 : map (fun p => ndiv p (Fin bsd_N)) (map Fin (map exp bsd_l)) = map Fin bsd_p).
  { unfold bsd_p. rewrite !map_map. apply map_ext. intros. apply ndiv_fin. lra. }
  rewrite E2. destruct (cdfgrid_fin bsd_p grid) as (g & G1 & G2); rewrite ?bp_len; auto. rewrite G1. cbn [rbind]. rewrite G2. reflexivity.
Qed.
Lemma bsd_lp i : (i < length grid)%nat -> nexp (bsd_log_prob the_bsd (Fin (nth i grid 0))) = Fin (nth i bsd_p 0).
Proof.
  intros Hi. unfold bsd_log_prob, the_bsd. cbn [b_grid b_lpdfs b_norm]. rewrite ninterp_fin, rinterp_node by (auto; apply bl_len). pose proof bN_pos. rewrite nlog_fin, nsub_fin, nexp_fin by auto. apply (f_equal Fin).
  unfold bsd_p. rewrite (nth_indep (map _ _) 0 ((fun l => exp l / bsd_N) 0)) by (rewrite map_length, bl_len; auto). rewrite (map_nth (fun l => exp l / bsd_N)). unfold Rminus. rewrite exp_plus, exp_Ropp, exp_ln by auto. reflexivity.
Qed.
Lemma bsd_map : map (fun z => nexp (bsd_log_prob the_bsd (Fin z))) grid = map Fin bsd_p.
Proof.
  apply (nth_ext _ _ NaN NaN); rewrite !map_length; [symmetry; apply bp_len|]. intros i Hi.
  rewrite (nth_indep _ NaN ((fun z => nexp (bsd_log_prob the_bsd (Fin z))) 0)) by (rewrite map_length; auto). rewrite (map_nth (fun z => nexp (bsd_log_prob the_bsd (Fin z)))).
  rewrite bsd_lp by auto. rewrite (nth_indep _ NaN (Fin 0)) by (rewrite map_length, bp_len; auto). rewrite map_nth. reflexivity.
Qed.
End BSD.
(** the density is the exponential of the spline at the nodes, up to its trapezoid integral *)
Lemma bsd_unit cs grid rows : increasing grid -> (2 <= length grid)%nat -> length cs = length rows -> (forall r, In r rows -> length r = length grid) ->
  exists d ps, make_bsd (map Fin cs) (map Fin grid) (map (map Fin) rows) = Ok d /\ map (fun z => nexp (bsd_log_prob d (Fin z))) grid = map Fin ps /\
    (exists k, 0 < k /\ forall i, (i < length grid)%nat -> nth i ps 0 = exp (Rlsum (map2 Rmult cs (map (fun r => nth i r 0) rows))) / k) /\ trapezoid grid ps = 1.
Proof.
  intros Hg H2 Hc Hr. exists (the_bsd cs grid rows), (bsd_p cs grid rows). split; [apply make_bsd_fin; auto|]. split; [apply bsd_map; auto|]. split; [|apply bp_one; auto].
  exists (bsd_N cs grid rows). split; [apply bN_pos; auto|]. intros i Hi. unfold bsd_p.
  rewrite (nth_indep (map _ _) 0 ((fun l => exp l / bsd_N cs grid rows) 0)) by (rewrite map_length, bl_len; auto). rewrite (map_nth (fun l => exp l / bsd_N cs grid rows)).
  unfold bsd_l at 1. rewrite nth_map_seq' by auto. reflexivity.
Qed.
Lemma bsd_cdf_props h cs grid rows : uniform_grid h grid -> (2 <= length grid)%nat -> length cs = length rows -> (forall r, In r rows -> length r = length grid) ->
  exists d F G, make_bsd (map Fin cs) (map Fin grid) (map (map Fin) rows) = Ok d /\ (forall z, bsd_cdf d (Fin z) = Fin (F z)) /\
    (forall z w, z <= w -> F z <= F w) /\ (forall z, z <= hd 0 grid -> F z = 0) /\ (forall z, last grid 0 <= z -> F z = 1) /\
    (forall u, bsd_sample d (Fin u) = Fin (G u) /\ hd 0 grid <= G u <= last grid 0).
Proof.
  intros U H2 Hc Hr. pose proof (uniform_increasing h grid U) as Hz.
  exists (the_bsd cs grid rows), (fun z => rinterp z grid (cdf_table grid (bsd_p cs grid rows))), (fun u => rinterp u (cdf_table grid (bsd_p cs grid rows)) grid).
  destruct (cdf_table_mono h grid (bsd_p cs grid rows) U H2) as (M & M0 & M1); [apply bp_len; auto|apply bp_nonneg; auto|apply bp_one; auto|].
  assert (Lc : length (cdf_table grid (bsd_p cs grid rows)) = length grid) by apply cdf_table_length. split; [apply make_bsd_fin; auto|].
  set (t := cdf_table grid (bsd_p cs grid rows)) in *.
  assert (Z0 : grid <> []) by (intros E; rewrite E in H2; cbn in H2; lia). assert (T0 : t <> []) by (intros E; rewrite E in Lc; cbn in Lc; lia).
  split; [intros z; apply ninterp_fin; auto|]. split; [intros; apply rinterp_mono_nd; auto|].
  split; [|split].
  - intros z Hzz. destruct grid as [|z0 zs']; [congruence|]. destruct t as [|t0 t']; [congruence|]. cbn [hd nth] in *. rewrite rinterp_left by auto. auto.
  - intros z Hzz. rewrite rinterp_right by auto. rewrite <- M1, <- Lc. rewrite (last_nth t 0) by auto. reflexivity.
  - intros u. split; [apply ninterp_nd; auto|]. apply rinterp_between_nd; auto. intros y Hy. destruct grid as [|z0 zs']; [congruence|]. split; [apply (increasing_hd_le z0 zs'); auto|apply increasing_le_last; auto].
Qed.
(** ... but not the integral of the density *)
Lemma bsd_cdf_wrong h cs grid rows : uniform_grid h grid -> (3 <= length grid)%nat -> length cs = length rows -> (forall r, In r rows -> length r = length grid) ->
  Rlsum (map2 Rmult cs (map (fun r => nth 0 r 0) rows)) <> Rlsum (map2 Rmult cs (map (fun r => nth 2 r 0) rows)) ->
  exists d ps F, make_bsd (map Fin cs) (map Fin grid) (map (map Fin) rows) = Ok d /\ map (fun z => nexp (bsd_log_prob d (Fin z))) grid = map Fin ps /\
    bsd_cdf d (Fin (nth 1 grid 0)) = Fin F /\ F <> prefix_integral grid ps 1.
Proof.
  intros U H3 Hc Hr Hne. pose proof (uniform_increasing h grid U) as Hz. assert (H2 : (2 <= length grid)%nat) by lia.
  exists (the_bsd cs grid rows), (bsd_p cs grid rows), (nth 1 (cdf_table grid (bsd_p cs grid rows)) 0).
  split; [apply make_bsd_fin; auto|]. split; [apply bsd_map; auto|]. split.
  - unfold bsd_cdf. cbn [the_bsd b_grid b_cdfgrid]. rewrite ninterp_fin by auto. rewrite rinterp_node; auto. apply cdf_table_length.
  - rewrite cdf_table_nth by lia. rewrite (proj2 (Nat.eqb_neq 1 _)) by lia. rewrite (shift_prefix h) by (auto; try lia; apply bp_len; auto).
    rewrite !prefix_S by (rewrite ?bp_len by auto; lia). rewrite prefix_0. destruct U as (Hh & U). rewrite !U by lia. intros G.
    assert (G2 : h * (nth 2 (bsd_p cs grid rows) 0 - nth 0 (bsd_p cs grid rows) 0) = 0) by lra. apply Rmult_integral in G2. destruct G2 as [G2|G2]; [lra|].
    assert (PN := bN_pos cs grid rows Hz H2 Hc). assert (Q : forall i, (i < length grid)%nat -> nth i (bsd_p cs grid rows) 0 = exp (Rlsum (map2 Rmult cs (map (fun r => nth i r 0) rows))) / bsd_N cs grid rows).
    { intros i Hi. unfold bsd_p. rewrite (nth_indep (map _ _) 0 ((fun l => exp l / bsd_N cs grid rows) 0)) by (rewrite map_length, bl_len; auto). rewrite (map_nth (fun l => exp l / bsd_N cs grid rows)). unfold bsd_l at 1. rewrite nth_map_seq' by auto. reflexivity. }
    rewrite !Q in G2 by lia. apply Hne. apply exp_inv. apply Rmult_eq_reg_r with (/ bsd_N cs grid rows); [unfold Rdiv in G2; lra|apply Rinv_neq_0_compat; lra].
Qed.
(** a NaN in the design matrix, which basis splines return outside their range, spoils the density in its bin *)
Lemma bsd_nan : exists d, make_bsd (Fin 1 :: nil) [Fin 0; Fin 1] ([Fin 0; NaN] :: nil) = Ok d /\ bsd_log_prob d (Fin (1/2)) = NInf /\ bsd_log_prob d (Fin 0) = NaN.
Proof.
  eexists. split; [reflexivity|].
  assert (N : ntrapz [Fin (exp 0); Fin 0] [Fin 0; Fin 1] = Fin (/2)) by (change ([Fin (exp 0); Fin 0]) with (map Fin [exp 0; 0]); change ([Fin 0; Fin 1]) with (map Fin [0; 1]); rewrite ntrapz_fin; cbn [trapezoid]; rewrite exp_0; apply (f_equal Fin); lra).
  unfold bsd_log_prob. cbn [b_grid b_lpdfs b_norm].
  assert (L : map (nan_to_num_gen NInf (Fin FMAX) (Fin (- FMAX))) (einsum_rows (Fin 1 :: nil) ([Fin 0; NaN] :: nil) 2) = [Fin 0; NInf]).
  { cbn. repeat apply (f_equal2 cons); auto. apply (f_equal Fin). lra. }
  change (length [Fin 0; Fin 1]) with 2%nat. rewrite L. change (map nexp [Fin 0; NInf]) with [Fin (exp 0); Fin 0]. rewrite N, nlog_fin by lra. split.
  - cbn [ninterp nisnan nlt]. rewrite Rltb_f by lra. cbn [ninterp_in nlt]. rewrite Rltb_t by lra. rewrite !nsub_fin, ndiv_fin by lra.
    change (nsub NInf (Fin 0)) with NInf. unfold nmul, sinf. rewrite Rltb_t by lra. reflexivity.
  - cbn [ninterp nisnan nlt]. rewrite Rltb_f by lra. cbn [ninterp_in nlt]. rewrite Rltb_t by lra. rewrite !nsub_fin, ndiv_fin by lra.
    change (nsub NInf (Fin 0)) with NInf. unfold nmul, sinf. rewrite !Rltb_f by lra. reflexivity.
Qed.

(** ** PSplineCoeficientPrior *)
Lemma psp_accepts d (v : list num) : length v = p_N d -> psp_log_prob d (Tensor (length v :: nil) v) = Ok (apply_difference_prior v (p_inv_var d) (p_order d)).
Proof. intros H. unfold psp_log_prob. cbn [t_shape t_data]. rewrite H, Nat.eqb_refl. reflexivity. Qed.
Lemma psp_rejects d (v : tensor) : t_shape v <> (p_N d :: nil) -> psp_log_prob d v = Err AssertionError.
Proof. intros H. unfold psp_log_prob. destruct (t_shape v) as [|n [|]]; auto. destruct (Nat.eqb_spec n (p_N d)); [|reflexivity]. exfalso. apply H. congruence. Qed.
Lemma psp_sample_shape d sh : t_shape (psp_sample d sh) = sh.
Proof. unfold psp_sample. cbn [t_shape]. apply app_nil_r. Qed.
Lemma psp_sample_bad d sh : t_shape (psp_sample d sh) <> sh ++ (p_N d :: nil).
Proof. rewrite psp_sample_shape. intros E. apply (f_equal (@length nat)) in E. rewrite app_length in E. cbn in E. lia. Qed.
Lemma psp_sample_log_prob d : psp_log_prob d (psp_sample d []) = Err AssertionError.
Proof. reflexivity. Qed.
