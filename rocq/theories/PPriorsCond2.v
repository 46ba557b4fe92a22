(** What chi_p_prior_given_chi_eff_q (preprocess/priors.py:247-333) interpolates. *)
From Coq Require Import Lia Lra.
From Verif Require Export PPriorsCond.
From Verif Require Export Spec.
Open Scope R_scope.

Definition posA (x : num) : Prop := exists r, x = Fin r /\ 0 < r.
Definition open_stream (rnd : nat -> num) : Prop := forall i, exists u, rnd i = Fin u /\ 0 < u < 1.
Lemma take_posA rnd amax pos k : 0 < amax -> open_stream rnd -> Forall posA (map (fun u => u * Fin amax)%num (take_rnd rnd pos k)).
Proof.
  intros Ha Hr. unfold take_rnd. rewrite map_map. apply Forall_forall. intros x Hx. apply in_map_iff in Hx.
  destruct Hx as (i & <- & _). destruct (Hr i) as (u & -> & Hu). exists (u * amax). split; [reflexivity|]. apply Rmult_lt_0_compat; lra.
Qed.
Lemma loop_pos rnd chi q amax s s' : 0 < amax -> open_stream rnd -> loop_exit rnd chi q (Fin amax) s s' ->
  Forall posA (s_a1 s) -> Forall posA (s_a1 s').
Proof.
  intros Ha Hr H. induction H as [s H|s s' H1 H2 IH]; intros Hok; [auto|].
  apply IH. cbn [redraw s_a1]. apply put_Forall; auto. apply take_posA; auto.
Qed.

Lemma interpolant_nodes kde chi q amax s m :
  max_chi_p chi q amax = Fin m -> 0 < m ->
  (forall draws w x, exists v, kde draws w (Fin x) = Fin v /\ 0 < v) ->
  let draws := map2 (fun ac d => chip q (fst ac) (fst d) (snd ac) (snd d)) (combine (s_a1 s) (spin_cost1 chi q s)) (combine (s_a2 s) (s_cost2 s)) in
  let w := map (fun a1 => (Fin 1 + q) / a1)%num (s_a1 s) in
  exists N, 0 < N /\ forall i, (i < 50)%nat -> let x := m * (5 / 100 + INR i * (90 / 100) / 49) in
    exists k, kde draws w (Fin x) = Fin k /\ chi_p_prior_given_chi_eff_q kde chi q amax s (Fin x) = Fin (k / N).
Proof.
  intros Hm Pm Hk draws w. unfold chi_p_prior_given_chi_eff_q, chi_p_interpolant. rewrite Hm. fold draws w. clearbody draws w.
  rewrite !nmul_fin, nlinspace_fin by lia.
  set (g := rlinspace (5 / 100 * m) (95 / 100 * m) 50).
  assert (Hv : exists vs, map (kde draws w) (map Fin g) = map Fin vs /\ length vs = length g /\ forall v, In v vs -> 0 < v).
  { clearbody g. induction g as [|x g (vs & E & L & P)]; [exists []; repeat split; auto; intros ? []|].
    destruct (Hk draws w x) as (v & Ev & Pv). exists (v :: vs). cbn [map]. rewrite Ev, E.
    split; [reflexivity|]. split; [cbn [length]; lia|]. intros y [<-|Hy]; auto. }
  destruct Hv as (vs & Ev & Lv & Pv). rewrite Ev.
  assert (Lg : length g = 50%nat) by apply rlinspace_length.
  set (vals := 0 :: vs ++ (0 :: [])).
  assert (EV : Fin 0 :: map Fin vs ++ (Fin 0 :: []) = map Fin vals) by (unfold vals; cbn [map]; rewrite map_app; reflexivity).
  assert (EG : Fin 0 :: map Fin g ++ (Fin m :: []) = map Fin (cgrid m)) by (unfold cgrid; cbn [map]; rewrite map_app; reflexivity).
  rewrite EV, EG, ntrapz_fin.
  pose proof (cgrid_increasing m Pm) as Hinc.
  assert (LG : length (cgrid m) = 52%nat) by (unfold cgrid; cbn [length]; rewrite app_length; fold g; rewrite Lg; reflexivity).
  assert (LV : length vals = 52%nat) by (unfold vals; cbn [length]; rewrite app_length, Lv, Lg; reflexivity).
  assert (NV : forall y, In y vals -> 0 <= y).
  { unfold vals. intros y [<-|Hy]; [lra|]. apply in_app_or in Hy. destruct Hy as [Hy|[<-|[]]]; [apply Pv in Hy|]; lra. }
  set (T := trapezoid (cgrid m) vals).
  assert (HT : 0 < T).
  { unfold T, cgrid, vals. fold g.
    assert (Eg : exists g0 g', g = g0 :: g') by (destruct g; [discriminate|eauto]). destruct Eg as (g0 & g' & Eg).
    unfold cgrid in Hinc. fold g in Hinc. rewrite Eg in *. clear Eg. destruct vs as [|v0 vs']; [discriminate|].
    cbn [app]. change (0 < (g0 - 0) * (0 + v0) / 2 + trapezoid (g0 :: g' ++ (m :: [])) (v0 :: vs' ++ (0 :: []))).
    assert (0 < v0) by (apply Pv; left; auto).
    cbn [app] in Hinc. destruct Hinc as [H1 H2].
    assert (0 <= trapezoid (g0 :: g' ++ (m :: [])) (v0 :: vs' ++ (0 :: []))).
    { apply trapezoid_nonneg; auto. intros y Hy. apply NV. right. exact Hy. }
    nra. }
  assert (ED : map (fun v => (v / Fin T)%num) (map Fin vals) = map Fin (map (fun v => v / T) vals)).
  { rewrite !map_map. apply map_ext. intros v. apply ndiv_fin. lra. }
  rewrite ED. set (nv := map (fun v => v / T) vals).
  assert (Lnv : length nv = length (cgrid m)) by (unfold nv; rewrite map_length; lia).
  exists T. split; [auto|]. intros i Hi. cbv zeta. set (x := m * (5 / 100 + INR i * (90 / 100) / 49)).
  assert (Ex : x = nth i g 0). { unfold g. rewrite rlinspace_nth by lia. cbn [Nat.sub]. unfold x. replace (INR 49) with 49 by (cbn; lra). field. }
  assert (Eg : nth (S i) (cgrid m) 0 = x) by (unfold cgrid; cbn [nth]; fold g; rewrite app_nth1 by lia; auto).
  exists (nth i vs 0). split.
  - rewrite Ex. rewrite <- (map_nth Fin vs 0 i), <- Ev. rewrite map_map. rewrite (nth_indep _ _ (kde draws w (Fin 0))) by (rewrite map_length; lia).
    rewrite (map_nth (fun y => kde draws w (Fin y)) g 0 i). reflexivity.
  - rewrite ninterp_fin by auto. rewrite <- Eg, rinterp_node by (auto; lia). unfold nv, vals. cbn [map nth].
    f_equal. rewrite (nth_indep _ 0 (0 / T)) by (rewrite map_length, app_length; lia). rewrite (map_nth (fun v => v / T)).
    rewrite app_nth1 by lia. reflexivity.
Qed.

Lemma conditional_weighted : forall kde rnd chi q amax n s m, 0 < q -> 0 < amax ->
  (forall k, exists u, rnd k = Fin u /\ 0 < u < 1) ->
  loop_exit rnd (Fin chi) (Fin q) (Fin amax) (draw_spins rnd (Fin amax) n) s ->
  max_chi_p (Fin chi) (Fin q) (Fin amax) = Fin m -> 0 < m ->
  (forall draws w x, exists v, kde draws w (Fin x) = Fin v /\ 0 < v) ->
  exists draws w N, length draws = n /\ length w = n /\ 0 < N /\
    (forall j, (j < n)%nat -> exists a1 a2 c1 c2 J,
       0 < a1 < amax /\ 0 <= a2 < amax /\ -1 <= c1 <= 1 /\ -1 <= c2 < 1 /\
       chi * (1 + q) = a1 * c1 + q * a2 * c2 /\
       nth j draws NaN = Fin (Rmax (a1 * sqrt (1 - c1 ^ 2)) ((3 + 4 * q) / (4 + 3 * q) * q * a2 * sqrt (1 - c2 ^ 2))) /\
       nth j w NaN = Fin J /\ is_derive (fun t => (t * (1 + q) - q * a2 * c2) / a1) chi J) /\
    (forall i, (i < 50)%nat -> let x := m * (5 / 100 + INR i * (90 / 100) / 49) in
       exists k, kde draws w (Fin x) = Fin k /\ chi_p_prior_given_chi_eff_q kde (Fin chi) (Fin q) (Fin amax) s (Fin x) = Fin (k / N)).
Proof.
  intros kde rnd chi q amax n s m Hq Ha Hr HL Hm Pm Hk.
  assert (Hu : unit_stream rnd) by (intros k; destruct (Hr k) as (u & E & ?); exists u; split; [auto|lra]).
  destruct (loop_ok _ _ _ _ n _ _ Ha Hu HL (draw_ok rnd amax n Ha Hu)) as ((L1 & L2 & L3 & _) & _).
  assert (P1 : Forall posA (s_a1 s)) by (apply (loop_pos _ _ _ _ _ _ Ha Hr HL); unfold draw_spins; cbn [s_a1]; apply take_posA; auto).
  destruct (interpolant_nodes kde (Fin chi) (Fin q) (Fin amax) s m Hm Pm Hk) as (N & HN & Hnodes).
  eexists _, _, N. split; [|split; [|split; [exact HN|split; [|exact Hnodes]]]].
  - rewrite map2_length, !combine_length. unfold spin_cost1. rewrite !map2_length. lia.
  - rewrite map_length. auto.
  - intros j Hj. destruct (loop_draw rnd chi q amax n s j Ha Hu HL Hj) as (a1 & a2 & c2 & E1 & E2 & E3 & R1 & R2 & R3 & [D|D]).
    + destruct D as (Pa & c1 & Ec & Rc & Eq). exists a1, a2, c1, c2, ((1 + q) / a1).
      split; [lra|split; [auto|split; [auto|split; [auto|split; [auto|]]]]]. 
      assert (Ls : length (spin_cost1 (Fin chi) (Fin q) s) = n) by (unfold spin_cost1; rewrite !map2_length; lia).
      split; [|split].
      * rewrite (nth_map2 _ _ _ j (NaN, NaN) (NaN, NaN)) by (rewrite combine_length; lia).
        rewrite !combine_nth by lia. cbn [fst snd]. rewrite E1, E2, E3, Ec. apply chip_fin; lra.
      * rewrite (nth_indep _ NaN ((Fin 1 + Fin q) / NaN)%num) by (rewrite map_length; lia).
        rewrite (map_nth (fun a => ((Fin 1 + Fin q) / a)%num)), E1. rewrite nadd_fin, ndiv_fin by lra. reflexivity.
      * auto_derive; [auto|]. field. lra.
    + destruct D as (-> & _). exfalso. destruct (Forall_nth' _ _ j NaN P1 ltac:(lia)) as (r & Er & Pr). rewrite E1 in Er. injection Er. lra.
Qed.
