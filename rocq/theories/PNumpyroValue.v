(** Density between the grid points and inversion of the tabulated cdf for the gridded numpyro distributions. *)
From Verif Require Import PNumpyroDist SpecPieces.
Open Scope R_scope.

Lemma piece_in xs : forall ys i t, length ys = length xs -> increasing xs -> (S i < length xs)%nat -> 0 <= t < 1 ->
  rinterp_in ((1 - t) * nth i xs 0 + t * nth (S i) xs 0) xs ys = (1 - t) * nth i ys 0 + t * nth (S i) ys 0.
Proof.
  induction xs as [|x0 xs IH]; intros ys i t L Hx Hi Ht; [cbn in Hi; lia|]. destruct ys as [|y0 ys]; [discriminate|]. destruct xs as [|x1 xs]; [cbn in Hi; lia|]. destruct ys as [|y1 ys]; [discriminate|].
  destruct i as [|i].
  - cbn [nth]. rewrite rinterp_in_unfold. destruct Hx as [H0 _]. rewrite Rltb_t by nra. field. lra.
  - rewrite rinterp_in_unfold. rewrite Rltb_f.
    + change (nth (S (S i)) (x0 :: x1 :: xs) 0) with (nth (S i) (x1 :: xs) 0). change (nth (S i) (x0 :: x1 :: xs) 0) with (nth i (x1 :: xs) 0).
      apply (IH (y1 :: ys) i t); auto; [apply (increasing_tl _ _ Hx)|cbn [length] in *; lia].
    + pose proof (increasing_tl _ _ Hx) as Hx'. change (nth (S (S i)) (x0 :: x1 :: xs) 0) with (nth i xs 0). change (nth (S i) (x0 :: x1 :: xs) 0) with (nth i (x1 :: xs) 0). assert (A : x1 <= nth i (x1 :: xs) 0) by (apply (increasing_hd_le x1 xs); auto; apply nth_In; cbn [length] in *; lia).
      assert (B : x1 <= nth i xs 0) by (apply (increasing_hd_le x1 xs); auto; right; apply nth_In; cbn [length] in *; lia). nra.
Qed.
Lemma pieces xs ys : length ys = length xs -> increasing xs -> broken_line xs ys (fun x => rinterp x xs ys).
Proof.
  intros L Hx i t Hi Ht. destruct (Req_dec t 1) as [->|Nt].
  - replace ((1 - 1) * nth i xs 0 + 1 * nth (S i) xs 0) with (nth (S i) xs 0) by ring. rewrite rinterp_node by auto. ring.
  - destruct xs as [|x0 xs]; [cbn in Hi; lia|]. destruct ys as [|y0 ys]; [discriminate|]. unfold rinterp. rewrite Rltb_f; [apply piece_in; auto; lra|].
    assert (A : x0 <= nth i (x0 :: xs) 0) by (apply (increasing_hd_le x0 xs); auto; apply nth_In; lia). assert (B : x0 <= nth (S i) (x0 :: xs) 0) by (apply (increasing_hd_le x0 xs); auto; apply nth_In; lia). nra.
Qed.
(** the cdf table increases strictly when the density does not vanish, so the table and its inverse invert each other *)
Lemma cdf_strict h x p : uniform_grid h x -> (2 <= length x)%nat -> length p = length x -> (forall i, (0 < i < length x)%nat -> 0 < nth i p 0) -> 0 <= nth 0 p 0 -> trapezoid x p = 1 ->
  increasing (cdf_table x p).
Proof.
  intros U H2 Hl Hp Hp0 Hone. apply (increasing_of_nth _ 0). rewrite cdf_table_length. intros i Hi. rewrite !cdf_table_nth by lia. rewrite (proj2 (Nat.eqb_neq i _)) by lia.
  rewrite (shift_prefix h) by auto. pose proof U as [Hh Hs]. destruct (Nat.eqb_spec (S i) (length x - 1)) as [E|E].
  - rewrite E, prefix_all, Hone by lia. rewrite (prefix_S x p 0), prefix_0, Hs by lia. pose proof (Hp 1%nat ltac:(lia)). nra.
  - rewrite (shift_prefix h) by (auto; lia). rewrite (prefix_S x p (S i)), Hs by lia. pose proof (Hp (S i) ltac:(lia)). pose proof (Hp (S (S i)) ltac:(lia)). nra.
Qed.
Lemma cdf_entries h x p : uniform_grid h x -> length p = length x -> forall i, (i < length x)%nat ->
  nth i (cdf_table x p) 0 = if (S i =? length x)%nat then 1 else prefix_integral x p (S i) - prefix_integral x p 1.
Proof.
  intros U Hl i Hi. rewrite cdf_table_nth by lia. replace (i =? length x - 1)%nat with (S i =? length x)%nat by (destruct (Nat.eqb_spec (S i) (length x)), (Nat.eqb_spec i (length x - 1)); auto; lia).
  destruct (Nat.eqb_spec (S i) (length x)); auto. apply (shift_prefix h); auto. lia.
Qed.
Lemma last_of (l : list R) : l <> [] -> last l 0 = nth (length l - 1) l 0.
Proof. intros. destruct l; [congruence|]. rewrite (last_nth (r :: l) 0) by auto. reflexivity. Qed.
Lemma table_inverts h x p : uniform_grid h x -> (2 <= length x)%nat -> length p = length x -> (forall i, (0 < i < length x)%nat -> 0 < nth i p 0) -> 0 <= nth 0 p 0 -> trapezoid x p = 1 ->
  (forall u, 0 <= u <= 1 -> rinterp (rinterp u (cdf_table x p) x) x (cdf_table x p) = u) /\
  (forall z, hd 0 x <= z <= last x 0 -> rinterp (rinterp z x (cdf_table x p)) (cdf_table x p) x = z).
Proof.
  intros U H2 Hl Hp Hp0 Hone. pose proof (uniform_increasing h x U) as Hx. pose proof (cdf_strict h x p U H2 Hl Hp Hp0 Hone) as Hc. pose proof (cdf_table_length x p) as Lc.
  assert (Z0 : x <> []) by (intros E; rewrite E in H2; cbn in H2; lia). assert (T0 : cdf_table x p <> []) by (intros E; rewrite E in Lc; cbn in Lc; lia).
  assert (A : nth 0 (cdf_table x p) 0 = 0) by (rewrite cdf_table_nth by lia; rewrite (proj2 (Nat.eqb_neq 0 _)) by lia; apply prefix_0).
  assert (B : last (cdf_table x p) 0 = 1) by (rewrite last_of, Lc, cdf_table_nth, Nat.eqb_refl by (auto; lia); reflexivity).
  split; intros; apply rinterp_inv; auto. rewrite B. destruct (cdf_table x p); [congruence|]. cbn [hd nth] in *. lra.
Qed.

(** ** PowerlawRedshift *)
Lemma redshift_density lamb maximum zs dV : increasing zs -> (forall z, In z zs -> -1 < z) -> (2 <= length zs)%nat -> length dV = length zs ->
  (forall v, In v dV -> 0 <= v) -> (exists v, In v dV /\ 0 < v) ->
  exists d V, make_plz (Fin lamb) (Fin maximum) (map Fin zs) (map Fin dV) = Ok d /\ broken_line zs dV V /\
    let total := trapezoid zs (map2 (fun v z => v * Rpower (1 + z) (lamb - 1)) dV zs) in
    0 < total /\ (forall z, hd 0 zs <= z <= last zs 0 -> z <= maximum -> nexp (plz_log_prob d (Fin z)) = Fin (V z * Rpower (1 + z) (lamb - 1) / total)) /\
    (forall z, maximum < z -> plz_log_prob d (Fin z) = Fin (- FMAX)).
Proof.
  intros Hz Hz1 H2 Hl Hv Hs. exists (the_plz lamb maximum zs dV), (fun z => rinterp z zs dV). split; [apply make_plz_fin; auto|]. split; [apply pieces; auto|].
  fold (plz_raw lamb zs dV). fold (plz_N lamb zs dV). cbv zeta. pose proof (N_pos lamb zs dV Hz H2 Hl Hv Hs) as HN. split; auto. split.
  - intros z Hzz Hm. unfold plz_log_prob, the_plz. cbn [z_zs z_dV z_max z_lamb z_norm nle]. rewrite Rleb_t by auto. cbn [nwhere]. rewrite ninterp_fin by auto.
    assert (-1 < z). { destruct zs as [|z0 zs']; [cbn in H2; lia|]. cbn [hd] in Hzz. specialize (Hz1 z0 (or_introl eq_refl)). lra. }
    pose proof (rinterp_nonneg z zs dV Hz Hv) as Hp. set (w := rinterp z zs dV) in *.
    rewrite nadd_fin, nsub_fin. rewrite (nlog_fin (1 + z)), (nlog_fin (plz_N lamb zs dV)) by lra. rewrite nmul_fin. destruct (Req_dec w 0) as [E|E].
    + rewrite E, nlog_zero. cbn. apply (f_equal Fin). field. lra.
    + rewrite nlog_fin by lra. rewrite nadd_fin, nsub_fin, nexp_fin. apply (f_equal Fin). unfold Rminus at 1. rewrite exp_plus, exp_plus, exp_Ropp, !exp_ln by lra. reflexivity.
  - intros z Hzz. unfold plz_log_prob, the_plz. cbn [z_zs z_dV z_max z_lamb z_norm nle]. rewrite Rleb_f by auto. reflexivity.
Qed.
Lemma redshift_inverse lamb maximum h zs dV : uniform_grid h zs -> (forall z, In z zs -> -1 < z) -> (2 <= length zs)%nat -> length dV = length zs ->
  0 <= hd 0 dV -> (forall v, In v (tl dV) -> 0 < v) -> last zs 0 <= maximum ->
  exists d ps cs F G, make_plz (Fin lamb) (Fin maximum) (map Fin zs) (map Fin dV) = Ok d /\ map (fun z => nexp (plz_log_prob d (Fin z))) zs = map Fin ps /\
    (forall i, (i < length zs)%nat -> nth i cs 0 = if (S i =? length zs)%nat then 1 else prefix_integral zs ps (S i) - prefix_integral zs ps 1) /\
    broken_line zs cs F /\ (forall z, plz_cdf d (Fin z) = Fin (F z)) /\ (forall u, plz_sample d (Fin u) = Fin (G u)) /\
    (forall u, 0 <= u <= 1 -> F (G u) = u) /\ (forall z, hd 0 zs <= z <= last zs 0 -> G (F z) = z).
Proof.
  intros U Hz1 H2 Hl Hv0 Hv Hm. pose proof (uniform_increasing h zs U) as Hz.
  assert (Hn : forall v, In v dV -> 0 <= v). { intros v Hi. destruct dV; [destruct Hi|]. cbn [hd tl] in *. destruct Hi as [<-|Hi]; auto. left. auto. }
  assert (Hs : exists v, In v dV /\ 0 < v). { destruct dV as [|a [|b t]]; cbn [length] in *; try lia. exists b. split; [right; left; auto|apply Hv; left; auto]. }
  exists (the_plz lamb maximum zs dV), (plz_p lamb zs dV), (cdf_table zs (plz_p lamb zs dV)), (fun z => rinterp z zs (cdf_table zs (plz_p lamb zs dV))), (fun u => rinterp u (cdf_table zs (plz_p lamb zs dV)) zs).
  split; [apply make_plz_fin; auto|]. split.
  { apply (nth_ext _ _ NaN NaN); rewrite !map_length; [symmetry; apply p_len; auto|]. intros i Hi.
    rewrite (nth_indep _ NaN ((fun z => nexp (plz_log_prob (the_plz lamb maximum zs dV) (Fin z))) 0)) by (rewrite map_length; auto). rewrite (map_nth (fun z => nexp (plz_log_prob (the_plz lamb maximum zs dV) (Fin z)))).
    rewrite plz_lp; auto.
    + rewrite (nth_indep _ NaN (Fin 0)) by (rewrite map_length, p_len; auto). rewrite map_nth. reflexivity.
    + eapply Rle_trans; [|apply Hm]. destruct zs as [|z0 zs]; [cbn in Hi; lia|]. apply increasing_le_last; auto. apply nth_In. auto. }
  split; [intros; apply (cdf_entries h); auto; apply p_len; auto|]. split; [apply pieces; auto; rewrite cdf_table_length; auto|]. split; [intros; apply ninterp_fin; auto|]. 
  assert (Hp : forall i, (0 < i < length zs)%nat -> 0 < nth i (plz_p lamb zs dV) 0).
  { intros i Hi. rewrite p_nth by (auto; lia). apply Rdiv_lt_0_compat; [|apply N_pos; auto]. apply Rmult_lt_0_compat; [|apply Rpower_pos]. destruct dV as [|a t]; [cbn in Hl; lia|]. destruct i as [|i]; [lia|]. cbn [nth]. apply Hv. cbn [tl]. apply nth_In. cbn [length] in *. lia. }
  assert (Hp0 : 0 <= nth 0 (plz_p lamb zs dV) 0) by (apply (p_nonneg lamb zs dV Hz H2 Hl Hn Hs); apply nth_In; rewrite (p_len lamb zs dV H2 Hl); lia).
  pose proof (p_one lamb zs dV Hz H2 Hl Hn Hs) as H1.
  destruct (table_inverts h zs (plz_p lamb zs dV)) as [I1 I2]; auto; [apply p_len; auto|]. split; [|split; auto].
  intros u. apply ninterp_fin. apply (cdf_strict h); auto. apply p_len; auto.
Qed.

(** ** BSplineDistribution *)
Lemma spline_density cs grid rows : increasing grid -> (2 <= length grid)%nat -> length cs = length rows -> (forall r, In r rows -> length r = length grid) ->
  exists d L ls, make_bsd (map Fin cs) (map Fin grid) (map (map Fin) rows) = Ok d /\ length ls = length grid /\
    (forall i, (i < length grid)%nat -> nth i ls 0 = Rlsum (map2 Rmult cs (map (fun r => nth i r 0) rows))) /\ broken_line grid ls L /\
    (forall z, z <= hd 0 grid -> L z = hd 0 ls) /\ (forall z, last grid 0 <= z -> L z = last ls 0) /\
    forall z, bsd_log_prob d (Fin z) = Fin (L z - ln (trapezoid grid (map exp ls))).
Proof.
  intros Hg H2 Hc Hr. exists (the_bsd cs grid rows), (fun z => rinterp z grid (bsd_l cs grid rows)), (bsd_l cs grid rows). pose proof (bl_len cs grid rows) as Ll.
  assert (Z0 : grid <> []) by (intros E; rewrite E in H2; cbn in H2; lia).
  split; [apply make_bsd_fin; auto|]. split; auto. split; [intros i Hi; unfold bsd_l; rewrite nth_map_seq' by auto; reflexivity|]. split; [apply pieces; auto|]. split; [|split].
  - intros z Hz. destruct grid as [|g0 g]; [congruence|]. destruct (bsd_l cs (g0 :: g) rows) as [|l0 l]; [discriminate|]. cbn [hd] in *. apply rinterp_left; auto.
  - intros z Hz. apply rinterp_right; auto.
  - intros z. unfold bsd_log_prob, the_bsd. cbn [b_grid b_lpdfs b_norm]. rewrite ninterp_fin by auto. rewrite nlog_fin, nsub_fin by (apply bN_pos; auto). reflexivity.
Qed.
Lemma spline_inverse h cs grid rows : uniform_grid h grid -> (2 <= length grid)%nat -> length cs = length rows -> (forall r, In r rows -> length r = length grid) ->
  exists d ps ts F G, make_bsd (map Fin cs) (map Fin grid) (map (map Fin) rows) = Ok d /\ map (fun z => nexp (bsd_log_prob d (Fin z))) grid = map Fin ps /\
    (forall i, (i < length grid)%nat -> nth i ts 0 = if (S i =? length grid)%nat then 1 else prefix_integral grid ps (S i) - prefix_integral grid ps 1) /\
    broken_line grid ts F /\ (forall z, bsd_cdf d (Fin z) = Fin (F z)) /\ (forall u, bsd_sample d (Fin u) = Fin (G u)) /\
    (forall u, 0 <= u <= 1 -> F (G u) = u) /\ (forall z, hd 0 grid <= z <= last grid 0 -> G (F z) = z).
Proof.
  intros U H2 Hc Hr. pose proof (uniform_increasing h grid U) as Hg. set (p := bsd_p cs grid rows).
  exists (the_bsd cs grid rows), p, (cdf_table grid p), (fun z => rinterp z grid (cdf_table grid p)), (fun u => rinterp u (cdf_table grid p) grid).
  assert (Lp : length p = length grid) by apply bp_len.
  split; [apply make_bsd_fin; auto|]. split; [apply bsd_map; auto|]. split; [intros; apply (cdf_entries h); auto|]. split; [apply pieces; auto; apply cdf_table_length|]. split; [intros; apply ninterp_fin; auto|].
  assert (Hp : forall i, (i < length grid)%nat -> 0 < nth i p 0).
  { intros i Hi. unfold p, bsd_p. rewrite (nth_indep (map _ _) 0 ((fun l => exp l / bsd_N cs grid rows) 0)) by (rewrite map_length, bl_len; auto). rewrite (map_nth (fun l => exp l / bsd_N cs grid rows)).
    apply Rdiv_lt_0_compat; [apply exp_pos|apply bN_pos; auto]. }
  assert (Hp0 : 0 <= nth 0 p 0) by (left; apply Hp; lia). assert (Hp' : forall i, (0 < i < length grid)%nat -> 0 < nth i p 0) by (intros; apply Hp; lia).
  pose proof (bp_one cs grid rows Hg H2) as H1. destruct (table_inverts h grid p) as [I1 I2]; auto. split; [|split; auto].
  intros u. apply ninterp_fin. apply (cdf_strict h); auto.
Qed.
(** the stand-in sampler of PowerlawSmoothedPowerlaw *)
Lemma smoothed_sample alpha m M amax amin low high u : 1 < low -> exists x, pspl_sample (make_pspl (Fin alpha) (Fin m) (Fin M) (Fin amax) (Fin amin) (Fin low) (Fin high)) u = Fin x /\ x < low.
Proof. intros. exists 1. split; [reflexivity|lra]. Qed.
