(** Proofs about chi_p_prior_given_chi_eff_q of [MPriors]. *)
From Verif Require Export PConversions NumFacts MPriors Interp ArrFacts Calc PPriorsAligned Spec.
Open Scope R_scope.

Definition okA (amax : R) (x : num) : Prop := exists r, x = Fin r /\ 0 <= r < amax.
Definition okC (x : num) : Prop := exists r, x = Fin r /\ -1 <= r < 1.
Definition okS (amax : R) (n : nat) (s : spins) : Prop :=
  length (s_a1 s) = n /\ length (s_a2 s) = n /\ length (s_cost2 s) = n /\
  Forall (okA amax) (s_a1 s) /\ Forall (okA amax) (s_a2 s) /\ Forall okC (s_cost2 s).
Definition unit_stream (rnd : nat -> num) : Prop := forall i, exists u, rnd i = Fin u /\ 0 <= u < 1.

Lemma put_length mask : forall vals l, length (put mask vals l) = length l.
Proof.
  induction mask as [|[|] m IH]; intros vals [|x l]; cbn; auto.
  destruct vals; cbn; auto.
Qed.
Lemma put_Forall (P : num -> Prop) mask : forall vals l, Forall P vals -> Forall P l -> Forall P (put mask vals l).
Proof.
  induction mask as [|[|] m IH]; intros vals [|x l] Hv Hl; cbn; auto.
  - destruct vals; auto. inversion Hv; inversion Hl; subst. constructor; auto.
  - inversion Hl; subst. constructor; auto.
Qed.
Lemma take_okA rnd amax pos k : 0 < amax -> unit_stream rnd -> Forall (okA amax) (map (fun u => u * Fin amax)%num (take_rnd rnd pos k)).
Proof.
  intros Ha Hr. unfold take_rnd. rewrite map_map. apply Forall_forall. intros x Hx. apply in_map_iff in Hx.
  destruct Hx as (i & <- & _). destruct (Hr i) as (u & -> & Hu). exists (u * amax). split; [reflexivity|]. nra.
Qed.
Lemma take_okC rnd pos k : unit_stream rnd -> Forall okC (map (fun u => Fin 2 * u - Fin 1)%num (take_rnd rnd pos k)).
Proof.
  intros Hr. unfold take_rnd. rewrite map_map. apply Forall_forall. intros x Hx. apply in_map_iff in Hx.
  destruct Hx as (i & <- & _). destruct (Hr i) as (u & -> & Hu). exists (2 * u - 1). split; [reflexivity|]. lra.
Qed.
Lemma draw_ok rnd amax n : 0 < amax -> unit_stream rnd -> okS amax n (draw_spins rnd (Fin amax) n).
Proof.
  intros Ha Hr. unfold draw_spins, okS. cbn [s_a1 s_a2 s_cost2].
  unfold take_rnd. rewrite !map_length, !seq_length. repeat split; auto using take_okA, take_okC; (apply take_okA || apply take_okC); auto.
Qed.
Lemma redraw_ok rnd amax n mask s : 0 < amax -> unit_stream rnd -> okS amax n s -> okS amax n (redraw rnd (Fin amax) mask s).
Proof.
  intros Ha Hr (L1 & L2 & L3 & F1 & F2 & F3). unfold redraw, okS. cbn [s_a1 s_a2 s_cost2].
  rewrite !put_length. repeat split; auto; apply put_Forall; auto using take_okA, take_okC.
Qed.
Lemma loop_ok rnd chi q amax n s s' : 0 < amax -> unit_stream rnd -> loop_exit rnd chi q (Fin amax) s s' ->
  okS amax n s -> okS amax n s' /\ existsb unphysical (spin_cost1 chi q s') = false.
Proof.
  intros Ha Hr H. induction H as [s H|s s' H1 H2 IH]; intros Hok; [auto|].
  apply IH. apply redraw_ok; auto.
Qed.

Lemma nth_map2 {A B C} (f : A -> B -> C) xs ys i da db dc : (i < length xs)%nat -> (i < length ys)%nat ->
  nth i (map2 f xs ys) dc = f (nth i xs da) (nth i ys db).
Proof.
  revert ys i; induction xs as [|x xs IH]; intros [|y ys] i H1 H2; cbn in *; try lia.
  destruct i; auto. apply IH; lia.
Qed.
Lemma Forall_nth' {A} (P : A -> Prop) l i d : Forall P l -> (i < length l)%nat -> P (nth i l d).
Proof. intros H Hi. rewrite Forall_forall in H. apply H, nth_In; auto. Qed.

(** what the loop guarantees for draw number i *)
Lemma loop_draw rnd chi q amax n s' i : 0 < amax -> unit_stream rnd ->
  loop_exit rnd (Fin chi) (Fin q) (Fin amax) (draw_spins rnd (Fin amax) n) s' -> (i < n)%nat ->
  exists a1 a2 c2, nth i (s_a1 s') NaN = Fin a1 /\ nth i (s_a2 s') NaN = Fin a2 /\ nth i (s_cost2 s') NaN = Fin c2 /\
    0 <= a1 < amax /\ 0 <= a2 < amax /\ -1 <= c2 < 1 /\
    ((0 < a1 /\ exists c1, nth i (spin_cost1 (Fin chi) (Fin q) s') NaN = Fin c1 /\ -1 <= c1 <= 1 /\ chi * (1 + q) = a1 * c1 + q * a2 * c2)
     \/ (a1 = 0 /\ nth i (spin_cost1 (Fin chi) (Fin q) s') NaN = NaN /\ chi * (1 + q) = q * a2 * c2)).
Proof.
  intros Ha Hr H Hi. destruct (loop_ok _ _ _ _ n _ _ Ha Hr H (draw_ok rnd amax n Ha Hr)) as ((L1 & L2 & L3 & F1 & F2 & F3) & Hex).
  destruct (Forall_nth' _ _ i NaN F1 ltac:(lia)) as (a1 & E1 & R1).
  destruct (Forall_nth' _ _ i NaN F2 ltac:(lia)) as (a2 & E2 & R2).
  destruct (Forall_nth' _ _ i NaN F3 ltac:(lia)) as (c2 & E3 & R3).
  exists a1, a2, c2. split; [auto|]. split; [auto|]. split; [auto|]. split; [auto|]. split; [auto|]. split; [auto|].
  assert (E : nth i (spin_cost1 (Fin chi) (Fin q) s') NaN = (Fin (chi * (1 + q) - q * a2 * c2) / Fin a1)%num).
  { unfold spin_cost1. rewrite (nth_map2 _ _ _ i NaN NaN); [|lia|rewrite map2_length; lia].
    rewrite (nth_map2 _ _ _ i NaN NaN) by lia. rewrite E1, E2, E3. reflexivity. }
  assert (U : unphysical (nth i (spin_cost1 (Fin chi) (Fin q) s') NaN) = false).
  { rewrite <- Bool.not_true_iff_false in *. intros C. apply Hex. apply existsb_exists. eexists. split; [|exact C].
    apply nth_In. unfold spin_cost1. rewrite !map2_length. lia. }
  rewrite E in U |- *.
  destruct (Req_dec a1 0) as [->|Hne].
  - right. cbn [ndiv] in U |- *. rewrite Reqb_t in U |- * by auto.
    unfold unphysical, ngt in U.
    destruct (sinf_cases (chi * (1 + q) - q * a2 * c2)) as [[? Z]|[[? Z]|[? Z]]]; rewrite Z in U |- *.
    + cbn in U. discriminate.
    + cbn in U. discriminate.
    + split; [auto|]. split; [auto|]. lra.
  - left. split; [lra|]. rewrite ndiv_fin in U |- * by auto. eexists. split; [reflexivity|].
    unfold unphysical, ngt in U. cbn [nlt] in U. apply Bool.orb_false_iff in U. destruct U as [U1 U2].
    apply Rltb_false in U1, U2. split; [lra|]. field. auto.
Qed.

Lemma loop_attainable rnd chi q amax n s' : 0 < q -> 0 < amax -> unit_stream rnd -> (0 < n)%nat ->
  loop_exit rnd (Fin chi) (Fin q) (Fin amax) (draw_spins rnd (Fin amax) n) s' -> Rabs chi < amax.
Proof.
  intros Hq Ha Hr Hn H.
  destruct (loop_draw _ _ _ _ _ _ 0 Ha Hr H Hn) as (a1 & a2 & c2 & _ & _ & _ & R1 & R2 & R3 & D).
  assert (B2 : - amax < a2 * c2 < amax) by nra.
  assert (B : - amax * (1 + q) < chi * (1 + q) < amax * (1 + q)).
  { destruct D as [(P & c1 & _ & Rc & E)|(-> & _ & E)].
    - rewrite E. assert (- amax < a1 * c1 < amax) by nra. nra.
    - rewrite E. nra. }
  apply Rabs_def1; nra.
Qed.

(** the interpolated density *)
Lemma increasing_cons' a l : (forall x, In x l -> a < x) -> increasing l -> increasing (a :: l).
Proof. destruct l; cbn; auto. Qed.
Lemma increasing_snoc l m : increasing l -> (forall x, In x l -> x < m) -> increasing (l ++ (m :: [])).
Proof.
  induction l as [|a l IH]; intros Hi Hm; [cbn; auto|].
  cbn [app]. apply increasing_cons'.
  - intros x Hx. apply in_app_or in Hx. destruct Hx as [Hx|[<-|[]]]; [|apply Hm; left; auto].
    assert (a <= x) by (apply increasing_hd_le with l; auto; right; auto).
    destruct l as [|b l]; [destruct Hx|]. destruct Hi as [H1 H2].
    assert (b <= x) by (apply increasing_hd_le with l; auto). lra.
  - apply IH; [apply increasing_tl with a; auto|]. intros x Hx. apply Hm. right; auto.
Qed.
Lemma last_snoc {A} (l : list A) a d : last (l ++ (a :: [])) d = a.
Proof. apply last_last. Qed.

Definition cgrid (m : R) : list R := 0 :: rlinspace (5 / 100 * m) (95 / 100 * m) 50 ++ (m :: []).
Lemma cgrid_increasing m : 0 < m -> increasing (cgrid m).
Proof.
  intros Hm. unfold cgrid.
  assert (R : forall x, In x (rlinspace (5 / 100 * m) (95 / 100 * m) 50) -> 5 / 100 * m <= x <= 95 / 100 * m)
    by (intros x Hx; apply rlinspace_range with 50%nat; auto; lra).
  apply increasing_cons'.
  - intros x Hx. apply in_app_or in Hx. destruct Hx as [Hx|[<-|[]]]; [apply R in Hx|]; lra.
  - apply increasing_snoc; [apply rlinspace_increasing; lra|]. intros x Hx. apply R in Hx. lra.
Qed.
Lemma cgrid_last m : last (cgrid m) 0 = m.
Proof. unfold cgrid. rewrite app_comm_cons. apply last_snoc. Qed.

Lemma conditional_density kde chi q amax s m :
  max_chi_p chi q amax = Fin m -> 0 < m ->
  (forall draws w x, exists v, kde draws w (Fin x) = Fin v /\ 0 < v) ->
  exists f : R -> R,
    (forall x, chi_p_prior_given_chi_eff_q kde chi q amax s (Fin x) = Fin (f x)) /\
    (forall x, 0 <= f x) /\ (forall x, x <= 0 \/ m <= x -> f x = 0) /\ (forall x, continuous f x) /\ is_RInt f 0 m 1.
Proof.
  intros Hm Pm Hk. unfold chi_p_prior_given_chi_eff_q, chi_p_interpolant. rewrite Hm.
  set (draws := map2 _ _ _). set (w := map _ (s_a1 s)). clearbody draws w.
  rewrite !nmul_fin, nlinspace_fin by lia.
  set (g := rlinspace (5 / 100 * m) (95 / 100 * m) 50).
  assert (Hv : exists vs, map (kde draws w) (map Fin g) = map Fin vs /\ length vs = length g /\ forall v, In v vs -> 0 < v).
  { clearbody g. induction g as [|x g (vs & E & L & P)]; [exists []; repeat split; auto; intros ? []|].
    destruct (Hk draws w x) as (v & Ev & Pv). exists (v :: vs). cbn [map]. rewrite Ev, E.
    split; [reflexivity|]. split; [cbn [length]; lia|]. intros y [<-|Hy]; auto. }
  destruct Hv as (vs & Ev & Lv & Pv). rewrite Ev.
  assert (Lg : length g = 50%nat) by apply rlinspace_length.
  set (vals := 0 :: vs ++ (0 :: [])).
  assert (EV : Fin 0 :: map Fin vs ++ (Fin 0 :: []) = map Fin vals) by (unfold vals; cbn [map]; rewrite map_app; reflexivity).
  assert (EG : Fin 0 :: map Fin g ++ (Fin m :: []) = map Fin (cgrid m)) by (unfold cgrid; cbn [map]; rewrite map_app; reflexivity).
  rewrite EV, EG, ntrapz_fin.
  pose proof (cgrid_increasing m Pm) as Hinc.
  assert (LG : length (cgrid m) = 52%nat) by (unfold cgrid; cbn [length]; rewrite app_length; fold g; rewrite Lg; reflexivity).
  assert (LV : length vals = 52%nat) by (unfold vals; cbn [length]; rewrite app_length, Lv, Lg; reflexivity).
  assert (NV : forall y, In y vals -> 0 <= y).
  { unfold vals. intros y [<-|Hy]; [lra|]. apply in_app_or in Hy. destruct Hy as [Hy|[<-|[]]]; [apply Pv in Hy|]; lra. }
  set (T := trapezoid (cgrid m) vals).
  assert (HT : 0 < T).
  { unfold T, cgrid, vals. fold g.
    assert (Eg : exists g0 g', g = g0 :: g') by (destruct g; [discriminate|eauto]). destruct Eg as (g0 & g' & Eg).
    unfold cgrid in Hinc. fold g in Hinc. rewrite Eg in *. clear Eg. destruct vs as [|v0 vs']; [discriminate|].
    cbn [app]. change (0 < (g0 - 0) * (0 + v0) / 2 + trapezoid (g0 :: g' ++ (m :: [])) (v0 :: vs' ++ (0 :: []))).
    assert (0 < v0) by (apply Pv; left; auto).
    cbn [app] in Hinc. destruct Hinc as [H1 H2].
    assert (0 <= trapezoid (g0 :: g' ++ (m :: [])) (v0 :: vs' ++ (0 :: []))).
    { apply trapezoid_nonneg; auto. intros y Hy. apply NV. right. exact Hy. }
    nra. }
  assert (ED : map (fun v => (v / Fin T)%num) (map Fin vals) = map Fin (map (fun v => v / T) vals)).
  { rewrite !map_map. apply map_ext. intros v. apply ndiv_fin. lra. }
  rewrite ED. set (nv := map (fun v => v / T) vals).
  assert (Lnv : length nv = length (cgrid m)) by (unfold nv; rewrite map_length; lia).
  exists (fun x => rinterp x (cgrid m) nv). split; [|split; [|split; [|split]]].
  - intros x. apply ninterp_fin; auto.
  - intros x. apply rinterp_nonneg; auto. unfold nv. intros y Hy. apply in_map_iff in Hy. destruct Hy as (v & <- & Hy).
    apply Rdiv_le_0_compat; auto.
  - intros x [Hx|Hx].
    + unfold cgrid, nv, vals. cbn [map]. rewrite rinterp_left; [field; lra|exact Hinc|auto].
    + rewrite (rinterp_right x (cgrid m) nv) by (auto || discriminate || (rewrite cgrid_last; auto)).
      unfold nv, vals. change (0 :: vs ++ (0 :: [])) with ((0 :: vs) ++ (0 :: [])). rewrite map_app. cbn [map].
      rewrite last_snoc. field. lra.
  - intros x. apply rinterp_cont; auto.
  - apply (is_RInt_val _ _ _ (trapezoid (cgrid m) nv)).
    + pose proof (rinterp_int (cgrid m) nv ltac:(discriminate) Lnv Hinc) as I. rewrite cgrid_last in I. exact I.
    + unfold nv. rewrite trapezoid_div. fold T. field. lra.
Qed.

(** the support bound *)
Lemma max_chi_p_fin chi q amax : 0 < q -> 0 <= amax ^ 2 - ((1 + q) * Rabs chi - q) ^ 2 ->
  max_chi_p (Fin chi) (Fin q) (Fin amax)
  = Fin (if Rltb ((1 + q) * Rabs chi / q) amax then amax else sqrt (amax ^ 2 - ((1 + q) * Rabs chi - q) ^ 2)).
Proof.
  intros Hq Hs. unfold max_chi_p. cbn [nabs]. rewrite nadd_fin, !nmul_fin, ndiv_fin by lra. cbn [nlt].
  destruct (Rltb _ _); [reflexivity|]. rewrite nsub_fin, !npowi_fin, nsub_fin, nsqrt_fin by auto. reflexivity.
Qed.

Lemma perp_le a c b : 0 <= a -> -1 <= c <= 1 -> 0 <= b -> a * a * (1 - c * c) <= b * b -> a * sqrt (1 - c * c) <= b.
Proof.
  intros Ha Hc Hb H. rewrite <- (sqrt_square b) by auto. rewrite <- (sqrt_square a) at 1 by auto.
  rewrite <- sqrt_mult_alt by nra. apply sqrt_le_1_alt. exact H.
Qed.

Lemma max_chi_p_unit q a1 a2 c1 c2 : 0 < q <= 1 -> 0 <= a1 <= 1 -> 0 <= a2 <= 1 -> -1 <= c1 <= 1 -> -1 <= c2 <= 1 ->
  exists chi p m, chieff (Fin q) (Fin a1) (Fin a2) (Fin c1) (Fin c2) = Fin chi /\
    chip (Fin q) (Fin a1) (Fin a2) (Fin c1) (Fin c2) = Fin p /\
    max_chi_p (Fin chi) (Fin q) (Fin 1) = Fin m /\ 0 <= p <= m.
Proof.
  intros Hq H1 H2 G1 G2.
  destruct (chieff_physical q a1 a2 c1 c2) as (chi & Echi & Rchi & Lin & _); auto; [lra|].
  destruct (chip_physical q a1 a2 c1 c2) as (p & Ep & Rp & _ & _ & Hp & _); auto; [lra|].
  exists chi, p.
  assert (HX : exists t1 t2, -1 <= t1 <= 1 /\ -1 <= t2 <= 1 /\ t1 * t1 = c1 * c1 /\ t2 * t2 = c2 * c2 /\
    (1 + q) * Rabs chi = a1 * t1 + q * (a2 * t2)).
  { unfold Rabs. destruct (Rcase_abs chi).
    - exists (- c1), (- c2). repeat split; try lra.
    - exists c1, c2. repeat split; try lra. }
  destruct HX as (t1 & t2 & T1 & T2 & S1 & S2 & EX). set (X := (1 + q) * Rabs chi) in *.
  set (y := a2 * t2) in *. set (z := a1 * t1) in *.
  assert (Hy : -1 <= y <= 1) by (apply prod_bound; auto). assert (Hz : -1 <= z <= 1) by (apply prod_bound; auto).
  assert (HX0 : 0 <= X) by (unfold X; pose proof (Rabs_pos chi); nra).
  destruct (Rlt_le_dec (X / q) 1) as [HL|HL].
  - exists 1. split; auto. split; auto. split; [|lra].
    unfold max_chi_p. cbn [nabs]. rewrite nadd_fin, !nmul_fin, ndiv_fin by lra. cbn [nlt]. fold X. rewrite Rltb_t by auto. reflexivity.
  - assert (Hqx : q <= X). { apply Rmult_le_compat_r with (r := q) in HL; [|lra]. unfold Rdiv in HL. rewrite Rmult_assoc, Rinv_l in HL; lra. }
    assert (Hqy : q * y <= q) by nra. assert (HX1 : 0 <= X - q <= 1) by lra.
    assert (P : 0 <= 1 ^ 2 - (X - q) ^ 2) by nra.
    exists (sqrt (1 ^ 2 - (X - q) ^ 2)). split; auto. split; auto. split.
    + rewrite max_chi_p_fin by (auto; lra). fold X. rewrite Rltb_f by auto. reflexivity.
    + split; [lra|].
      assert (Hw : 0 <= (3 + 4 * q) / (4 + 3 * q) <= 1) by (split; [apply Rdiv_le_0_compat; lra|apply Rdiv_cross; lra]).
      assert (B : sqrt (1 ^ 2 - (X - q) ^ 2) * sqrt (1 ^ 2 - (X - q) ^ 2) = 1 ^ 2 - (X - q) ^ 2) by (apply sqrt_sqrt; auto).
      destruct Hp as [-> | ->].
      * apply perp_le; auto; [lra|apply sqrt_pos|]. rewrite B, <- S1.
        assert (0 <= X - q <= z) by lra.
        assert (a1 * a1 * (1 - t1 * t1) = a1 * a1 - z * z) as -> by (unfold z; ring). nra.
      * set (w := (3 + 4 * q) / (4 + 3 * q) * q). assert (Rw : 0 <= w <= q) by (unfold w; nra).
        rewrite <- Rmult_assoc. apply perp_le; auto; [nra|apply sqrt_pos|]. rewrite B, <- S2.
        assert (0 <= X - q <= 1 - q * (1 - y)) by lra.
        assert (w * a2 * (w * a2) * (1 - t2 * t2) = w * w * (a2 * a2 - y * y)) as -> by (unfold y; ring).
        assert (0 <= a2 * a2 - y * y). { unfold y. assert (t2 * t2 <= 1) by nra. assert (0 <= a2 * a2) by nra. nra. }
        assert (w * w * (a2 * a2 - y * y) <= q * q * ((1 - y) * (1 + y))).
        { apply Rmult_le_compat; nra. }
        assert (q * q * ((1 - y) * (1 + y)) <= q * (1 - y) * (2 - q * (1 - y))).
        { assert (0 <= q * (1 - y)) by nra. nra. }
        nra.
Qed.
(** for a_max <> 1 the bound uses q where q*a_max is meant and excludes physical values *)
Lemma max_chi_p_refuted : exists q a1 a2 c1 c2 amax chi p m, 0 < q <= 1 /\ 0 < amax <= 1 /\
    0 <= a1 <= amax /\ 0 <= a2 <= amax /\ -1 <= c1 <= 1 /\ -1 <= c2 <= 1 /\
    chieff (Fin q) (Fin a1) (Fin a2) (Fin c1) (Fin c2) = Fin chi /\
    chip (Fin q) (Fin a1) (Fin a2) (Fin c1) (Fin c2) = Fin p /\
    max_chi_p (Fin chi) (Fin q) (Fin amax) = Fin m /\ m < p.
Proof.
  (* q = a = 1/2, spin 2 maximal and aligned, spin 1 = 1/2 with cosine 1/10: X = 1/20 + 1/4 = 3/10 *)
  exists (1/2), (1/2), (1/2), (1/10), 1, (1/2), (1/5).
  exists (Rmax (1/2 * sqrt (1 - (1/10) ^ 2)) ((3 + 4 * (1/2)) / (4 + 3 * (1/2)) * (1/2) * (1/2) * sqrt (1 - 1 ^ 2))), (sqrt (21/100)).
  repeat split; try lra.
  - rewrite chieff_fin by lra. f_equal. field.
  - apply chip_fin; lra.
  - rewrite max_chi_p_fin; rewrite ?(Rabs_right (1/5)) by lra; try lra. rewrite Rltb_f by lra. f_equal. f_equal. field.
  - apply Rlt_le_trans with (1/2 * sqrt (1 - (1/10) ^ 2)); [|apply Rmax_l].
    replace (1/2) with (sqrt (1/4)) by (replace (1/4) with ((1/2) * (1/2)) by field; apply sqrt_square; lra).
    rewrite <- sqrt_mult_alt by lra. apply sqrt_lt_1_alt. lra.
Qed.
Lemma max_chi_p_nan : max_chi_p (Fin (6/100)) (Fin 1) (Fin (1/10)) = NaN.
Proof.
  unfold max_chi_p. cbn [nabs]. rewrite Rabs_right by lra. rewrite nadd_fin, !nmul_fin, ndiv_fin by lra. cbn [nlt].
  rewrite Rltb_f by lra. rewrite nsub_fin, !npowi_fin, nsub_fin. cbn [nsqrt]. rewrite ?Rleb_f, ?Rltb_t by lra. reflexivity.
Qed.
