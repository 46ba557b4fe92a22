(** What happens to interior knots, normalised linear splines as densities, the difference penalty of any order. *)
From Verif Require Import PSplineEval PBSplineGauge PSmoothing.
From Verif Require Import SpecSpline Spec SpecEval.
Open Scope R_scope.

(** ** interior knots *)
Lemma interior_used s n k t0 t1 rest a b nrm : (1 <= k)%nat -> valid_range s a b -> (logx s = true -> 0 < t0 /\ 0 < t1) ->
  let step := coord s t1 - coord s t0 in
  ((length rest + k = n)%nat -> exists sp, make_spline s n k None (Some (map Fin (t0 :: t1 :: rest))) (Fin a) (Fin b) nrm = Ok sp /\
     sp_knots sp = map Fin (rlinspace (coord s a - INR (k - 1) * step) (coord s b + INR (k - 1) * step) (n + k))) /\
  ((length rest + k <> n)%nat -> make_spline s n k None (Some (map Fin (t0 :: t1 :: rest))) (Fin a) (Fin b) nrm = Err AssertionError).
Proof.
  intros Hk [HAB HL] HT step. unfold make_spline, make_knots. cbn [option_map].
  rewrite (coord_num s a), (coord_num s b) by (intros E; specialize (HL E); lra).
  assert (E : (if logx s then map nlog (map Fin (t0 :: t1 :: rest)) else map Fin (t0 :: t1 :: rest)) = Fin (coord s t0) :: Fin (coord s t1) :: (if logx s then map nlog (map Fin rest) else map Fin rest)).
  { unfold coord. destruct (logx s); [|reflexivity]. destruct (HT eq_refl). cbn [map]. rewrite !nlog_fin by auto. reflexivity. }
  rewrite E. cbn [rbind]. set (r := if logx s then _ else _). assert (LR : length r = length rest) by (unfold r; destruct (logx s); rewrite ?map_length; auto). clearbody r.
  rewrite nsub_fin, nmul_fin, nsub_fin, nadd_fin. cbn [length]. rewrite LR. set (m := (S (S (length rest)) + (k - 1) * 2)%nat). assert (MP : (1 <= m)%nat) by (unfold m; lia).
  rewrite nlinspace_fin by (unfold m; lia). rewrite map_length, rlinspace_length. split; intros H.
  - assert (m = (n + k)%nat) as -> by (unfold m; lia). rewrite Nat.eqb_refl. cbn [negb]. eexists. split; [reflexivity|]. cbn [sp_knots]. fold step.
    rewrite (Rmult_comm step). reflexivity.
  - assert (Nat.eqb m (n + k) = false) as -> by (apply Nat.eqb_neq; unfold m; lia). reflexivity.
Qed.
Lemma interior_few s n k l a b nrm : (length l <= 1)%nat -> make_spline s n k None (Some l) a b nrm = Err IndexError.
Proof. intros H. unfold make_spline, make_knots. cbn [option_map]. destruct l as [|x [|y l]]; cbn in H; try lia; destruct (logx s); reflexivity. Qed.

(** ** linear splines with positive coefficients *)
Lemma linear_density s n k a b c : s = KB \/ s = KLogX -> (2 <= k <= n)%nat -> valid_range s a b -> wide_range s n k a b -> length c = n -> (forall v, In v c -> 0 < v) ->
  exists sp f, make_spline s n k None None (Fin a) (Fin b) true = Ok sp /\ sp_grid sp = map Fin (rlinspace a b (grid_size s)) /\
    (forall xs, (logx s = true -> Forall (fun x => 0 < x) xs) -> eval sp (map Fin xs) (map Fin c) = Ok (map Fin (map f xs))) /\
    (forall x, a <= x <= b -> 0 < f x) /\ (forall x, x < a \/ b < x -> f x = 0) /\
    trapezoid (rlinspace a b (grid_size s)) (map f (rlinspace a b (grid_size s))) = 1.
Proof.
  intros Hs HK HR HW HC HP. destruct (make_default s n k a b true ltac:(lia) HR) as (sp & E & _). destruct (make_default s n k a b false ltac:(lia) HR) as (sp0 & E0 & _ & _ & _ & _ & _ & KN & _).
  set (us := uniform (coord s a) (coord s b) n k) in *. set (gs := rlinspace a b (grid_size s)).
  assert (SP : spaced_knots us) by (apply uniform_spaced; try exact HW; try lia; apply coord_lt; auto).
  set (g := fun x => within a b x (spline_sum us k c (coord s x))).
  assert (EV : forall xs, (logx s = true -> Forall (fun x => 0 < x) xs) -> eval sp0 (map Fin xs) (map Fin c) = Ok (map Fin (map g xs))).
  { intros xs HX. apply (linear_value s n k None None a b sp0 us c xs); auto; lia. }
  pose proof (grid_real _ _ _ _ _ _ _ _ E HR) as GR. fold gs in GR.
  assert (GP : logx s = true -> Forall (fun x => 0 < x) gs).
  { intros L. destruct HR as [HAB HL]. specialize (HL L). apply Forall_forall. intros x Hx. apply rlinspace_range in Hx; lra. }
  assert (IN : forall x, a <= x <= b -> 0 < g x).
  { intros x HX. unfold g, within. rewrite !Rleb_t by lra. cbn [andb]. unfold spline_sum. rewrite <- (sum_by_index (fun i => Bspline (fun m => nth m us 0) k i (coord s x)) c). rewrite HC.
    apply convex_gt; auto.
    - rewrite map_length, seq_length. auto.
    - intros y Hy. exact (colR_nonneg s n k a b HK HR HW x y Hy).
    - exact (colR_sum s n k a b HK HR HW x HX). }
  assert (OUT : forall x, x < a \/ b < x -> g x = 0).
  { intros x [L|L]; unfold g, within; [rewrite (Rleb_f a x) by auto|rewrite (Rleb_f x b) by auto; rewrite andb_false_r]; reflexivity. }
  assert (TP : 0 < trapezoid gs (map g gs)).
  { destruct HR as [HAB HL]. assert (P : forall y, In y (map g gs) -> 0 < y).
    { intros y Hy. apply in_map_iff in Hy as (x & <- & Hx). apply rlinspace_range in Hx; [|lra]. auto. }
    apply trapezoid_pos.
    - apply rlinspace_increasing; auto.
    - unfold gs. rewrite rlinspace_length. apply grid_size_pos.
    - rewrite map_length. auto.
    - intros y Hy. left. auto.
    - intros y Hy. apply P. destruct (map g gs); [destruct Hy|right; auto]. }
  exists sp, (fun x => / trapezoid gs (map g gs) * g x). split; [exact E|]. split; [exact GR|]. split; [|split; [|split]].
  - intros xs HX. rewrite (normalised_value s n k None None (Fin a) (Fin b) sp sp0 (map Fin c) gs (map g gs) (map Fin xs) (map Fin (map g xs)) E E0 ltac:(lia) GR (EV gs GP) ltac:(lra) (EV xs HX)).
    apply (f_equal Ok). rewrite !map_map. apply map_ext. intros x. rewrite nmul_fin. apply (f_equal Fin). ring.
  - intros x HX. apply Rmult_lt_0_compat; [apply Rinv_0_lt_compat; exact TP|auto].
  - intros x HX. rewrite OUT by auto. ring.
  - rewrite <- (map_map g (fun y => / _ * y)), trapezoid_scal. apply Rinv_l. lra.
Qed.
