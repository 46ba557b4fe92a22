(** The rate evolution curves. *)
From Verif Require Export PPostprocess4.
From Verif Require Import ArrFacts NumFacts PBSplineMake PBSplineGauge PBSplines PSplinePert PSplinePert2 PConstruct Calc.
From Verif Require Import Spec.
Open Scope R_scope.

Lemma each_rate {D E O} (h : E -> D) (f : D -> num -> num -> result O) (P : E -> R -> O -> Prop) ds rate frac : length rate = length ds -> one_per_draw (length ds) frac ->
  (forall d r q, In d ds -> exists o, f (h d) (Fin r) (Fin q) = Ok o /\ P d (r * q) o) ->
  exists os, each_draw f (map h ds) (map Fin rate) (ones_unless (length ds) (given frac)) = Ok os /\ length os = length ds /\
    forall i d, nth_error ds i = Some d -> exists o, nth_error os i = Some o /\ P d (total_rate (Some rate) frac i) o.
Proof.
  intros HR HF H. destruct (all_ok h f P ds (Some rate) frac HR HF H) as (os & EO & L & K). exists os. split; auto. unfold all_draws in EO. rewrite map_length in EO. exact EO.
Qed.
Lemma init_fin dVcdz p0 pe i0 inj : let a := grid_lo p0 pe i0 inj in let b := grid_hi p0 pe i0 inj in redshift_model_init dVcdz (Fin p0) (map Fin pe) (Fin i0) (map Fin inj)
  = {| zm_min := Fin a; zm_max := Fin b; zm_zs := nlinspace (Fin a) (Fin b) 1000; zm_dV := map dVcdz (nlinspace (Fin a) (Fin b) 1000) |}.
Proof. exact (PParametric.redshift_init_fin dVcdz p0 pe i0 inj). Qed.
Lemma rate_of_z dVcdz p0 pe i0 inj lamb rate frac : Forall (fun z => -1 < z) (p0 :: pe) -> Forall (fun z => -1 < z) (i0 :: inj) -> grid_lo p0 pe i0 inj <= grid_hi p0 pe i0 inj ->
  length rate = length lamb -> one_per_draw (length lamb) frac ->
  let zs := rlinspace (grid_lo p0 pe i0 inj) (grid_hi p0 pe i0 inj) 1000 in
  exists cs, calculate_powerlaw_rate_of_z_ppds (redshift_model_init dVcdz (Fin p0) (map Fin pe) (Fin i0) (map Fin inj)) (map Fin lamb) (map Fin rate) (given frac) = Ok (cs, map Fin zs) /\
    length cs = length lamb /\ forall i la, nth_error lamb i = Some la -> nth i cs [] = map (fun z => Fin (total_rate (Some rate) frac i * Rpower (1 + z) la)) zs.
Proof.
  intros H1 H2 HL LR HF zs. assert (PZ : forall z, In z zs -> -1 < z).
  { intros z Hz. apply rlinspace_range in Hz; auto. assert (-1 < grid_lo p0 pe i0 inj); [|lra]. unfold grid_lo.
    assert (G : forall l x, Forall (fun z => -1 < z) (x :: l) -> -1 < fold_left Rmin l x).
    { induction l as [|y l IH]; intros x F; cbn; [inversion F; auto|]. apply IH. inversion F as [|? ? A1 A2]; subst. inversion A2; subst. constructor; auto. apply Rmin_glb_lt; auto. }
    apply Rlt_le_trans with (fold_left Rmin pe p0); [apply G; auto|apply Rmax_l]. }
  unfold calculate_powerlaw_rate_of_z_ppds. rewrite init_fin. cbn [zm_zs]. rewrite nlinspace_fin by apply two_thousand. fold zs. cbv zeta. rewrite map_length.
  match goal with |- context [each_draw ?ff _ _ _] => set (f := ff) end.
  destruct (each_rate Fin f (fun la tot out => out = map (fun z => Fin (tot * Rpower (1 + z) la)) zs) lamb rate frac LR HF) as (os & EO & L & K).
  - intros la r q Hd. eexists. split; [reflexivity|]. rewrite map_map. apply map_ext_in. intros z Hz. specialize (PZ z Hz). rewrite nadd_fin, npow_fin, !nmul_fin by lra. auto.
  - rewrite EO. cbn [rbind]. exists os. split; auto. split; auto. intros i la Hi. destruct (K i _ Hi) as (o & Eo & Po). rewrite (nth_some _ _ _ _ Eo). exact Po.
Qed.
Lemma spline_rate_of_z dVcdz s n p0 pe i0 inj m ds rate frac : s = KB \/ s = KLogX -> (4 <= n)%nat -> -1 < grid_lo p0 pe i0 inj < grid_hi p0 pe i0 inj -> (logx s = true -> 0 < grid_lo p0 pe i0 inj) ->
  make_plz_model dVcdz s n (Fin p0) (map Fin pe) (Fin i0) (map Fin inj) = Ok m ->
  length rate = length ds -> one_per_draw (length ds) frac -> (forall la c, In (la, c) ds -> length c = (n - 1)%nat) ->
  let zs := rlinspace (grid_lo p0 pe i0 inj) (grid_hi p0 pe i0 inj) 1000 in
  exists cs, calculate_powerlaw_spline_rate_of_z_ppds m (map (fun d => (Fin (fst d), map Fin (snd d))) ds) (map Fin rate) (given frac) = Ok (cs, map Fin zs) /\
    length cs = length ds /\ forall i la c, nth_error ds i = Some (la, c) -> exists S,
      (forall z, In z zs -> eval (y_sp m) (Fin z :: nil) (map Fin (0 :: c)) = Ok (Fin (S z) :: nil)) /\ ((forall v, In v c -> v = 0) -> forall z, In z zs -> S z = 0) /\
      nth i cs [] = map (fun z => Fin (total_rate (Some rate) frac i * Rpower (1 + z) la * exp (S z))) zs.
Proof.
  intros Hs Hn Hab Hlog HM LR HF HD zs. assert (VR : valid_range s (grid_lo p0 pe i0 inj) (grid_hi p0 pe i0 inj)) by (split; [lra|auto]).
  unfold make_plz_model in HM. rewrite init_fin in HM. cbn [zm_min zm_max zm_zs] in HM. set (a := grid_lo p0 pe i0 inj) in *. set (b := grid_hi p0 pe i0 inj) in *.
  destruct (make_default s n 4 a b false ltac:(lia) VR) as (sp & ES & K1 & K2 & K3 & K4 & K5 & K6 & K7). rewrite ES in HM. cbn [rbind] in HM. apply Ok_inj in HM.
  rewrite nlinspace_fin in HM by apply two_thousand. fold zs in HM. set (ts := uniform (coord s a) (coord s b) n 4) in *. assert (LT : length ts = (n + 4)%nat) by apply uniform_length.
  assert (ZR : forall z, In z zs -> a <= z <= b) by (intros z HZ; apply rlinspace_range in HZ; lra).
  assert (PR : forall c xs, length c = n -> (forall z, In z xs -> a <= z) -> project sp (bases sp (map Fin xs)) (map Fin c) = Ok (map Fin (map (lin s ts 4 n (coord s a) (coord s b) c) xs))).
  { intros c xs HC HX. apply lin_project; auto; try lia. intros L. apply Forall_forall. intros z HZ. specialize (HX z HZ). specialize (Hlog L). lra. }
  unfold calculate_powerlaw_spline_rate_of_z_ppds. rewrite <- HM. cbn [y_z y_sp y_norm zm_zs]. cbv zeta. rewrite map_length. clear HM m.
  match goal with |- context [each_draw ?ff (map ?hh _) _ _] => set (f := ff); set (h := hh) end.
  destruct (each_rate h f (fun d tot out => out = map (fun z => Fin (tot * Rpower (1 + z) (fst d) * exp (lin s ts 4 n (coord s a) (coord s b) (0 :: snd d) z))) zs) ds rate frac LR HF) as (os & EO & L & K).
  - intros [la c] r q Hd. specialize (HD _ _ Hd). unfold f, h. cbn [fst snd]. change (Fin 0 :: map Fin c) with (map Fin (0 :: c)).
    rewrite PR by (try (intros z HZ; apply ZR in HZ; lra); cbn [length]; lia). cbn [rbind]. eexists. split; [reflexivity|]. rewrite map_map, map2_maps. apply map_ext_in. intros z HZ. apply ZR in HZ.
    rewrite nadd_fin, npow_fin, !nmul_fin by lra. cbn [nexp]. rewrite nmul_fin. auto.
  - rewrite EO. cbn [rbind]. exists os. split; auto. split; auto. intros i la c Hi. destruct (K i _ Hi) as (o & Eo & Po). rewrite (nth_some _ _ _ _ Eo).
    assert (LC : length (0 :: c) = n) by (apply nth_error_In in Hi; specialize (HD _ _ Hi); cbn [length]; lia).
    exists (lin s ts 4 n (coord s a) (coord s b) (0 :: c)). split; [|split; [|exact Po]].
    + intros z HZ. unfold eval. change (Fin z :: nil) with (map Fin (z :: nil)). rewrite PR; auto. intros y [<-|[]]. apply ZR in HZ. lra.
    + intros HC z HZ. apply ZR in HZ. assert (EZ : 0 :: c = repeat 0 n).
      { rewrite <- LC. cbn [length repeat]. f_equal. clear - HC. induction c as [|v c IH]; cbn; auto. rewrite (HC v) by (left; auto). f_equal. apply IH. intros; apply HC; right; auto. }
      rewrite EZ. assert (X : Fin (lin s ts 4 n (coord s a) (coord s b) (repeat 0 n) z) = Fin 0); [|injection X; auto].
      rewrite lin_const; auto; try lia; [|intros Lg; specialize (Hlog Lg); lra]. destruct (column_fin s ts 4 n (coord s a) (coord s b) z Hs ltac:(lia) LT ltac:(intros Lg; specialize (Hlog Lg); lra)) as (w & -> & _). rewrite nsum_fin, nmul_fin. apply (f_equal Fin). ring.
Qed.
Lemma rate_at_zero dVcdz p0 pe i0 inj lamb rate frac : Forall (fun z => -1 < z) (p0 :: pe) -> Forall (fun z => -1 < z) (i0 :: inj) -> grid_lo p0 pe i0 inj = 0 -> 0 <= grid_hi p0 pe i0 inj ->
  length rate = length lamb -> one_per_draw (length lamb) frac ->
  exists cs zs, calculate_powerlaw_rate_of_z_ppds (redshift_model_init dVcdz (Fin p0) (map Fin pe) (Fin i0) (map Fin inj)) (map Fin lamb) (map Fin rate) (given frac) = Ok (cs, zs) /\
    nth 0 zs NaN = Fin 0 /\ forall i, (i < length lamb)%nat -> nth 0 (nth i cs []) NaN = Fin (total_rate (Some rate) frac i).
Proof.
  intros H1 H2 E0 HB LR HF. destruct (rate_of_z dVcdz p0 pe i0 inj lamb rate frac H1 H2 ltac:(lra) LR HF) as (cs & E & L & K). do 2 eexists. split; [exact E|].
  assert (L1 : (0 < length (rlinspace (grid_lo p0 pe i0 inj) (grid_hi p0 pe i0 inj) 1000))%nat) by (rewrite rlinspace_length; apply Nat.lt_le_trans with 2%nat; [lia|apply two_thousand]).
  assert (F : nth 0 (rlinspace (grid_lo p0 pe i0 inj) (grid_hi p0 pe i0 inj) 1000) 0 = 0) by (rewrite rlinspace_first; [auto|apply Nat.le_trans with 2%nat; [lia|apply two_thousand]]).
  split; [rewrite (PBSplines.nth_map' _ _ _ _ 0) by exact L1; rewrite F; auto|].
  intros i Hi. destruct (nth_error lamb i) as [la|] eqn:El; [|apply nth_error_None in El; exfalso; lia]. rewrite (K i la El).
  rewrite (PBSplines.nth_map' _ _ _ _ 0) by exact L1. rewrite F. apply (f_equal Fin). rewrite Rplus_0_r. unfold Rpower. rewrite ln_1, Rmult_0_r, exp_0. ring.
Qed.
Lemma zero_coefs_same dVcdz s n p0 pe i0 inj m ds rate frac : s = KB \/ s = KLogX -> (4 <= n)%nat -> Forall (fun z => -1 < z) (p0 :: pe) -> Forall (fun z => -1 < z) (i0 :: inj) -> -1 < grid_lo p0 pe i0 inj < grid_hi p0 pe i0 inj -> (logx s = true -> 0 < grid_lo p0 pe i0 inj) ->
  make_plz_model dVcdz s n (Fin p0) (map Fin pe) (Fin i0) (map Fin inj) = Ok m ->
  length rate = length ds -> one_per_draw (length ds) frac -> (forall la c, In (la, c) ds -> length c = (n - 1)%nat /\ forall v, In v c -> v = 0) ->
  calculate_powerlaw_spline_rate_of_z_ppds m (map (fun d => (Fin (fst d), map Fin (snd d))) ds) (map Fin rate) (given frac) =
  calculate_powerlaw_rate_of_z_ppds (redshift_model_init dVcdz (Fin p0) (map Fin pe) (Fin i0) (map Fin inj)) (map (fun d => Fin (fst d)) ds) (map Fin rate) (given frac).
Proof.
  intros Hs Hn H1 H2 Hab Hlog HM LR HF HD.
  destruct (spline_rate_of_z dVcdz s n p0 pe i0 inj m ds rate frac Hs Hn Hab Hlog HM LR HF ltac:(intros; eapply HD; eauto)) as (cs & E & L & K).
  destruct (rate_of_z dVcdz p0 pe i0 inj (map fst ds) rate frac H1 H2 ltac:(lra) ltac:(rewrite map_length; auto) ltac:(rewrite map_length; auto)) as (cs' & E' & L' & K').
  rewrite map_map in E'. rewrite E, E'. rewrite map_length in L'. apply (f_equal Ok). f_equal. apply (nth_ext _ _ [] []); [congruence|].
  intros i Hi. destruct (nth_error ds i) as [[la c]|] eqn:Ed; [|apply nth_error_None in Ed; exfalso; lia].
  destruct (K i la c Ed) as (S & _ & SZ & ->). rewrite (K' i la) by (apply (map_nth_error fst _ _ Ed)). apply map_ext_in. intros z HZ. rewrite SZ; auto; [rewrite exp_0, Rmult_1_r; auto|]. apply (HD la c). eapply nth_error_In; eauto.
Qed.
