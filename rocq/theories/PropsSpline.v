(** Property theorems C24-C34, C95, C101 and C102 (gwinferno/interpolation.py). *)
From Coquelicot Require Import Coquelicot.
From Verif Require Import PBSplineOut PNaturalSpline PLeast2 PMspline2 SpecSpline SpecNatural SpecLeast Spec SpecEval.
From Verif Require Import PSplineMore PSplineOut.
Open Scope R_scope.

(** C24: BSpline and LogXBSpline; partial because order 1 fails at the right end and knots closer than 1e-6 fail *)
Theorem C24_partition_of_unity_partial : forall s n k a b normalize, s = KB \/ s = KLogX -> (1 <= k <= n)%nat -> valid_range s a b -> wide_range s n k a b ->
  exists sp, make_spline s n k None None (Fin a) (Fin b) normalize = Ok sp /\
  forall xs j, (j < length xs)%nat -> a <= nth j xs 0 <= b -> (2 <= k)%nat \/ nth j xs 0 < b ->
    nsum (map (fun row => nth j row NaN) (bases sp (map Fin xs))) = Fin 1.
Proof. exact unity. Qed.
Print Assumptions C24_partition_of_unity_partial.
Theorem C24_order_one_right_end_refuted : exists sp, make_spline KB 2 1 None None (Fin 0) (Fin 1) false = Ok sp /\
  nsum (map (fun row => nth 0 row NaN) (bases sp (Fin 1 :: nil))) = Fin 0.
Proof. exact unity_order_one. Qed.
Print Assumptions C24_order_one_right_end_refuted.
Theorem C24_narrow_range_refuted : exists sp x, make_spline KB 4 4 None None (Fin 0) (Fin (1 / 10 ^ 7)) false = Ok sp /\ 0 <= x <= 1 / 10 ^ 7 /\
  nsum (map (fun row => nth 0 row NaN) (bases sp (Fin x :: nil))) = Fin 0.
Proof. exact unity_narrow. Qed.
Print Assumptions C24_narrow_range_refuted.
Example C24_case : valid_range KLogX 3 100 /\ wide_range KB 20 4 0 1.
Proof.
  split; [split; [lra|intros; lra]|]. unfold wide_range, coord. cbn [logx]. replace (INR (20 + 1 - 4)) with 17 by (cbn [Nat.add Nat.sub]; rewrite INR_IZR_INZ; reflexivity). lra.
Qed.

(** C25 *)
Theorem C25_textbook_splines : forall s n k ts interior a b normalize, s = KB \/ s = KLogX \/ s = KLogY \/ s = KLogXLogY -> (1 <= k)%nat -> length ts = (n + k)%nat ->
  valid_range s a b -> spaced_knots (map (coord s) ts) -> (logx s = true -> Forall (fun t => 0 < t) ts) ->
  exists sp, make_spline s n k (Some (map Fin ts)) interior (Fin a) (Fin b) normalize = Ok sp /\
  forall xs i j, (j < length xs)%nat -> (i < n)%nat -> a <= nth j xs 0 <= b ->
    exists v, nth j (nth i (bases sp (map Fin xs)) []) NaN = Fin v /\
      v = Bspline (fun m => nth m (map (coord s) ts) 0) k i (coord s (nth j xs 0)) /\ 0 <= v /\
      (coord s (nth j xs 0) < nth i (map (coord s) ts) 0 \/ nth (i + k) (map (coord s) ts) 0 <= coord s (nth j xs 0) -> v = 0).
Proof. exact textbook. Qed.
Print Assumptions C25_textbook_splines.
(** outside the range: exact zeros, or the logarithm of zero for the classes that model a log density (a negative x has no logarithm) *)
Theorem C25_zero_out_of_range : forall s n k knots interior a b normalize sp, valid_range s a b -> make_spline s n k knots interior (Fin a) (Fin b) normalize = Ok sp ->
  forall xs i j, (j < length xs)%nat -> (i < n)%nat -> nth j xs 0 < a \/ b < nth j xs 0 -> (logx s = true -> 0 <= nth j xs 0) ->
  nth j (nth i (bases sp (map Fin xs)) []) NaN = if logy s then NInf else Fin 0.
Proof. exact out_values. Qed.
Print Assumptions C25_zero_out_of_range.
Example C25_out_case : valid_range KLogX 1 2 /\ (nth 0 [0] 0 < 1 \/ 2 < nth 0 [0] 0) /\ 0 <= nth 0 [0] 0 /\ exists sp, make_spline KLogX 4 4 None None (Fin 1) (Fin 2) false = Ok sp.
Proof. split; [split; [lra|intros; lra]|]. split; [cbn; lra|]. split; [cbn; lra|]. destruct (PBSplineMake.make_default KLogX 4 4 1 2 false ltac:(lia) ltac:(split; [lra|intros; lra])) as (sp & E & _). eauto. Qed.
(** a non-uniform knot vector with repeated knots *)
Example C25_case : spaced_knots [0; 0; 1/4; 1; 1].
Proof. intros i Hi. cbn in Hi. do 4 (destruct i as [|i]; [cbn; (left; lra) || (right; lra)|]). lia. Qed.
Example C25_value : Bspline (fun m => nth m [0; 1; 2; 3] 0) 2 0 (1/2) = 1/2.
Proof. unfold Bspline, ratio. cbn [Nat.add nth]. rewrite !Reqb_f by lra. rewrite (Rleb_t 0 (1/2)), (Rltb_t (1/2) 1), (Rleb_f 1 (1/2)) by lra. cbn [andb]. lra. Qed.

(** C26 *)
Theorem C26_default_knots : forall s n k a b normalize, (1 <= k)%nat -> valid_range s a b ->
  ((exists sp, make_spline s n k None None (Fin a) (Fin b) normalize = Ok sp) <-> (k <= n)%nat) /\
  forall sp, make_spline s n k None None (Fin a) (Fin b) normalize = Ok sp ->
    exists ts d, sp_knots sp = map Fin ts /\ length ts = (n + k)%nat /\ 0 < d /\
      (forall i, (S i < n + k)%nat -> nth (S i) ts 0 - nth i ts 0 = d) /\
      nth (k - 1) ts 0 = coord s a /\ nth n ts 0 = coord s b.
Proof. exact knots_spec. Qed.
Print Assumptions C26_default_knots.
Example C26_case : valid_range KB 0 1 /\ valid_range KLogXLogY (1/100) 2. Proof. split; (split; [lra|intros; try discriminate; lra]). Qed.

(** C27: only equally spaced interior knots spanning the range survive *)
Theorem C27_uniform_interior_knots_partial : forall n k a b normalize, (1 <= k <= n)%nat -> a < b ->
  exists sp, make_spline KB n k None (Some (map Fin (rlinspace a b (n + 2 - k)))) (Fin a) (Fin b) normalize = Ok sp /\
  forall t, In t (rlinspace a b (n + 2 - k)) -> In (Fin t) (sp_knots sp).
Proof. exact interior_uniform. Qed.
Print Assumptions C27_uniform_interior_knots_partial.
Theorem C27_interior_knots_refuted : exists sp, make_spline KB 5 4 None (Some (map Fin [0; 1/4; 1])) (Fin 0) (Fin 1) false = Ok sp /\
  ~ In (Fin 0) (sp_knots sp) /\ ~ In (Fin (1/4)) (sp_knots sp) /\ ~ In (Fin 1) (sp_knots sp).
Proof. exact interior_ignored. Qed.
Print Assumptions C27_interior_knots_refuted.
(** whatever interior knots are given, only the difference of the first two is used: the knots are equally spaced from
    the lower end minus k-1 such differences to the upper end plus as many; their number must be n+2-k *)
Theorem C27_spacing_of_first_two_refuted : forall s n k t0 t1 rest a b normalize, (1 <= k)%nat -> valid_range s a b -> (logx s = true -> 0 < t0 /\ 0 < t1) ->
  let step := coord s t1 - coord s t0 in
  ((length rest + k = n)%nat -> exists sp, make_spline s n k None (Some (map Fin (t0 :: t1 :: rest))) (Fin a) (Fin b) normalize = Ok sp /\
     sp_knots sp = map Fin (rlinspace (coord s a - INR (k - 1) * step) (coord s b + INR (k - 1) * step) (n + k))) /\
  ((length rest + k <> n)%nat -> make_spline s n k None (Some (map Fin (t0 :: t1 :: rest))) (Fin a) (Fin b) normalize = Err AssertionError).
Proof. exact interior_used. Qed.
Print Assumptions C27_spacing_of_first_two_refuted.
Theorem C27_fewer_than_two_refused : forall s n k l a b normalize, (length l <= 1)%nat -> make_spline s n k None (Some l) a b normalize = Err IndexError.
Proof. exact interior_few. Qed.
Print Assumptions C27_fewer_than_two_refused.
Example C27_case : rlinspace 0 1 3 = [0; 1/2; 1].
Proof. unfold rlinspace. cbn [Nat.sub seq map]. rewrite !INR_IZR_INZ. cbn [Z.of_nat Pos.of_succ_nat Pos.succ]. repeat apply (f_equal2 cons); auto; lra. Qed.

(** C28: all five classes, any knots *)
Theorem C28_unit_integral : forall s n k knots interior a b sp sp0 coefs grid values,
  make_spline s n k knots interior a b true = Ok sp -> make_spline s n k knots interior a b false = Ok sp0 ->
  (1 <= n)%nat -> sp_grid sp = map Fin grid -> eval sp0 (map Fin grid) coefs = Ok (map Fin values) -> trapezoid grid values <> 0 ->
  exists ps, eval sp (map Fin grid) coefs = Ok (map Fin ps) /\ project sp (sp_grid_bases sp) coefs = Ok (map Fin ps) /\
    ps = map (fun v => / trapezoid grid values * v) values /\ trapezoid grid ps = 1.
Proof. exact unit_integral. Qed.
Print Assumptions C28_unit_integral.
(** the log-y classes are densities: positive in range, zero outside, with unit integral *)
Theorem C28_log_density : forall s n k a b, logy s = true -> (2 <= k <= n)%nat -> valid_range s a b -> wide_range s n k a b ->
  forall coefs, length coefs = n -> (forall v, In v coefs -> - FMAX < v) ->
  exists sp f, make_spline s n k None None (Fin a) (Fin b) true = Ok sp /\ sp_grid sp = map Fin (rlinspace a b (grid_size s)) /\
    (forall xs, eval sp (map Fin xs) (map Fin coefs) = Ok (map Fin (map f xs))) /\
    (forall x, a <= x <= b -> 0 < f x) /\ (forall x, x < a \/ b < x -> f x = 0) /\
    trapezoid (rlinspace a b (grid_size s)) (map f (rlinspace a b (grid_size s))) = 1.
Proof. exact log_unit. Qed.
Print Assumptions C28_log_density.
(** the linear classes with positive coefficients are densities too *)
Theorem C28_linear_density : forall s n k a b coefs, s = KB \/ s = KLogX -> (2 <= k <= n)%nat -> valid_range s a b -> wide_range s n k a b -> length coefs = n -> (forall v, In v coefs -> 0 < v) ->
  exists sp f, make_spline s n k None None (Fin a) (Fin b) true = Ok sp /\ sp_grid sp = map Fin (rlinspace a b (grid_size s)) /\
    (forall xs, (logx s = true -> Forall (fun x => 0 < x) xs) -> eval sp (map Fin xs) (map Fin coefs) = Ok (map Fin (map f xs))) /\
    (forall x, a <= x <= b -> 0 < f x) /\ (forall x, x < a \/ b < x -> f x = 0) /\
    trapezoid (rlinspace a b (grid_size s)) (map f (rlinspace a b (grid_size s))) = 1.
Proof. exact linear_density. Qed.
Print Assumptions C28_linear_density.
Example C28_linear_case : valid_range KLogX 5 100 /\ wide_range KLogX 10 4 5 100 /\ (forall v, In v [1; 1/2] -> 0 < v).
Proof.
  split; [split; [lra|intros; lra]|]. split; [|intros v [<-|[<-|[]]]; lra]. unfold wide_range, coord. cbn [logx Nat.add Nat.sub].
  assert (H : 1/2 <= ln 100 - ln 5).
  { rewrite <- ln_div by lra. replace (100 / 5) with 20 by lra. rewrite <- (ln_exp (1/2)). apply Rlt_le, ln_increasing; [apply exp_pos|].
    apply Rle_lt_trans with (exp 1); [|pose proof exp_le_3; lra]. apply Rlt_le, exp_increasing. lra. }
  replace (INR 7) with 7 by (cbn; lra). lra.
Qed.
Example C28_case : logy KLogY = true /\ valid_range KLogY 0 1 /\ - FMAX < -5.
Proof. split; [reflexivity|]. split; [split; [lra|discriminate]|unfold FMAX; lra]. Qed.

(** C29 *)
Theorem C29_linear_gauge : forall s n k knots interior a b sp sp0 coefs grid values l,
  logy s = false -> s <> KBasis -> (1 <= n)%nat ->
  make_spline s n k knots interior a b true = Ok sp -> make_spline s n k knots interior a b false = Ok sp0 ->
  sp_grid sp = map Fin grid -> eval sp0 (map Fin grid) coefs = Ok (map Fin values) -> trapezoid grid values <> 0 -> l <> 0 ->
  forall xs, eval sp xs (map (nmul (Fin l)) coefs) = eval sp xs coefs.
Proof. exact linear_gauge. Qed.
Print Assumptions C29_linear_gauge.
Theorem C29_basis_spline_gauge : forall sp coefs l, sp_kind sp = KBasis -> Rlsum coefs <> 0 -> l <> 0 ->
  forall xs, eval sp xs (map Fin (map (fun c => l * c) coefs)) = eval sp xs (map Fin coefs).
Proof. exact basis_gauge. Qed.
Print Assumptions C29_basis_spline_gauge.
Theorem C29_log_gauge : forall s n k a b, logy s = true -> (2 <= k <= n)%nat -> valid_range s a b -> wide_range s n k a b ->
  forall coefs d sp, length coefs = n -> (forall v, In v coefs -> - FMAX < v /\ - FMAX < v + d) ->
  make_spline s n k None None (Fin a) (Fin b) true = Ok sp ->
  forall xs, eval sp (map Fin xs) (map Fin (map (fun v => v + d) coefs)) = eval sp (map Fin xs) (map Fin coefs).
Proof. exact log_gauge. Qed.
Print Assumptions C29_log_gauge.
Example C29_case : Rlsum [1; 2; 3] <> 0 /\ logy KLogX = false. Proof. split; [cbn; lra|reflexivity]. Qed.

(** C30 *)
Theorem C30_unnormalised_zero : forall s n k knots interior a b sp coefs x, logy s = true -> valid_range s a b -> (1 <= n)%nat -> length coefs = n ->
  make_spline s n k knots interior (Fin a) (Fin b) false = Ok sp -> x < a \/ b < x -> (logx s = true -> 0 <= x) ->
  eval sp (Fin x :: nil) coefs = Ok (Fin 0 :: nil).
Proof. exact out_zero_any. Qed.
Print Assumptions C30_unnormalised_zero.
(** negative abscissae of LogXLogYBSpline too, from order two on *)
Theorem C30_unnormalised_zero_default : forall s n k a b, logy s = true -> (2 <= k <= n)%nat -> valid_range s a b -> wide_range s n k a b ->
  forall coefs, length coefs = n ->
  exists sp, make_spline s n k None None (Fin a) (Fin b) false = Ok sp /\
  forall x, x < a \/ b < x -> eval sp (Fin x :: nil) coefs = Ok (Fin 0 :: nil).
Proof. exact out_zero_unnormalised. Qed.
Print Assumptions C30_unnormalised_zero_default.
Theorem C30_normalised_zero_partial : forall s n k knots interior a b sp sp0 coefs x grid values, logy s = true -> valid_range s a b -> (1 <= n)%nat ->
  make_spline s n k knots interior (Fin a) (Fin b) true = Ok sp -> make_spline s n k knots interior (Fin a) (Fin b) false = Ok sp0 ->
  sp_grid sp = map Fin grid -> eval sp0 (map Fin grid) coefs = Ok (map Fin values) -> trapezoid grid values <> 0 ->
  x < a \/ b < x -> (logx s = true -> 0 <= x) ->
  eval sp (Fin x :: nil) coefs = Ok (Fin 0 :: nil).
Proof. exact out_zero_norm. Qed.
Print Assumptions C30_normalised_zero_partial.
Theorem C30_infinite_coefficients_refuted : forall s n k knots interior a b sp coefs x, logy s = true -> valid_range s a b -> (1 <= n)%nat -> length coefs = n ->
  (exists c, In c coefs /\ not_finite c) -> make_spline s n k knots interior (Fin a) (Fin b) true = Ok sp ->
  eval sp (x :: nil) coefs = Ok (NaN :: nil).
Proof. exact infinite_nan. Qed.
Print Assumptions C30_infinite_coefficients_refuted.
Theorem C30_order_one_negative_refuted : forall n a b sp coefs x, (1 <= n)%nat -> valid_range KLogXLogY a b -> length coefs = n -> x < 0 ->
  make_spline KLogXLogY n 1 None None (Fin a) (Fin b) false = Ok sp ->
  eval sp (Fin x :: nil) (map Fin coefs) = Ok (Fin 1 :: nil).
Proof. exact negative_order_one. Qed.
Print Assumptions C30_order_one_negative_refuted.
Example C30_case : not_finite PInf /\ not_finite NInf /\ valid_range KLogXLogY 2 100.
Proof. split; [intros r; discriminate|]. split; [intros r; discriminate|]. split; [lra|intros; lra]. Qed.

(** C31, and the left half of C32: for every linear solver that solves uniquely solvable systems *)
Theorem C31_system_uniquely_solvable : forall xs ys, increasing xs -> length ys = length xs -> (4 <= length xs)%nat ->
  let n := length xs in let A := nat_matrix (ndiff (map Fin xs)) n in let s := nat_rhs (ndiff (map Fin xs)) (ndiff (map Fin ys)) n in
  exists c, solves n A s c /\ forall c', solves n A s c' -> c' = c.
Proof. exact system_solvable. Qed.
Print Assumptions C31_system_uniquely_solvable.
Theorem C31_natural_spline : forall solve xs ys, correct_solver solve -> increasing xs -> (4 <= length xs)%nat -> length ys = length xs ->
  exists sp f f' f'', make_ncs solve (map Fin xs) (map Fin ys) None = Ok sp /\ (forall x, nc_call sp (Fin x) = Fin (f x)) /\
    (forall i, (i < length xs)%nat -> f (nth i xs 0) = nth i ys 0) /\ twice_continuously_differentiable f f' f''.
Proof. exact natural_smooth. Qed.
Print Assumptions C31_natural_spline.
Example C31_solver_exists : exists solve, correct_solver solve.
Proof. exact solver_exists. Qed.
Print Assumptions C31_solver_exists.
Example C31_case : increasing [0; 1; 3; 7]. Proof. cbn. lra. Qed.

(** C32: zero curvature at the first knot; at the last knot the curvature is that of the whole last interval *)
Theorem C32_left_end_partial : forall solve xs ys, correct_solver solve -> increasing xs -> (4 <= length xs)%nat -> length ys = length xs ->
  exists sp f f' f'', make_ncs solve (map Fin xs) (map Fin ys) None = Ok sp /\ (forall x, nc_call sp (Fin x) = Fin (f x)) /\
    twice_continuously_differentiable f f' f'' /\
    f'' (nth 0 xs 0) = 0 /\ (forall x, nth (length xs - 2) xs 0 <= x -> f'' x = f'' (nth (length xs - 1) xs 0)).
Proof. exact natural_ends. Qed.
Print Assumptions C32_left_end_partial.
Theorem C32_right_end_refuted : forall solve, correct_solver solve ->
  exists sp f f' f'', make_ncs solve (map Fin [0; 1; 2; 3]) (map Fin [0; 0; 1; 3]) None = Ok sp /\ (forall x, nc_call sp (Fin x) = Fin (f x)) /\
    twice_continuously_differentiable f f' f'' /\ f'' 3 = 18 / 19.
Proof. exact right_end. Qed.
Print Assumptions C32_right_end_refuted.
Example C32_case : increasing [0; 1; 2; 3]. Proof. cbn. lra. Qed.

(** C33 *)
Theorem C33_pytree_round_trip_refuted : forall sp, jax_round_trip sp = Err ValueError.
Proof. exact pytree_fails. Qed.
Print Assumptions C33_pytree_round_trip_refuted.
Example C33_case : exists sp : ncs, nc_x sp = map Fin [0; 1; 2; 3]. Proof. exists (NCS (map Fin [0; 1; 2; 3]) [] []). reflexivity. Qed.

(** C34 *)
Theorem C34_bivariate_bases_refuted : forall xsp ysp xs ys, rect_bases_actual xsp ysp xs ys = Err AttributeError.
Proof. exact rect_fails. Qed.
Print Assumptions C34_bivariate_bases_refuted.
Theorem C34_default_construction_refuted : forall xdf ydf kx ky sx sy xlo xhi ylo yhi, (kx <= xdf)%nat -> (ky <= ydf)%nat -> (1 <= kx)%nat -> (1 <= ky)%nat ->
  valid_range sx xlo xhi -> valid_range sy ylo yhi ->
  make_rect xdf ydf kx ky sx sy (Fin xlo) (Fin xhi) (Fin ylo) (Fin yhi) true = Err AttributeError.
Proof. exact rect_construction_fails. Qed.
Print Assumptions C34_default_construction_refuted.
(** even without the failing call, the reshape would exchange the two indices *)
Theorem C34_indices_exchanged_refuted : forall xsp ysp xs ys B i j, sp_N xsp = sp_N ysp -> (i < sp_N xsp)%nat -> (j < sp_N xsp)%nat ->
  rect_bases true xsp ysp xs ys = Ok B -> B i j = map2 nmul (nth j (bases xsp xs) []) (nth i (bases ysp ys) []).
Proof. exact rect_exchanged. Qed.
Print Assumptions C34_indices_exchanged_refuted.
Example C34_case : valid_range KB 0 1. Proof. split; [lra|discriminate]. Qed.

(** C95: whatever the spline class, whenever the basis values are real numbers and the inverse routine inverts the Gram matrix *)
Theorem C95_least_squares : forall inv sp xs ys B k G', bases sp (map Fin xs) = map (map Fin) B -> rectangular k (length xs) B -> length ys = length xs ->
  inv (map (map Fin) (gram B)) = map (map Fin) G' -> rectangular k k G' -> right_inverse k (gram B) G' ->
  exists alpha fit, get_coefficients inv sp (map Fin xs) (map Fin ys) = (map Fin alpha, map Fin fit, map (map Fin) (map (column B) (seq 0 (length xs)))) /\
    length alpha = k /\ fit = map (combination B alpha) (seq 0 (length xs)) /\
    (forall beta, length beta = k -> squared_error B ys alpha <= squared_error B ys beta) /\
    (forall beta, length beta = k -> (forall j, (j < length xs)%nat -> nth j ys 0 = combination B beta j) -> alpha = beta).
Proof. exact least_squares. Qed.
Print Assumptions C95_least_squares.
(** BSpline: the fit is the best one among all splines on the given knots, cut off outside the range *)
Theorem C95_least_squares_spline : forall inv n k ts interior a b normalize, (1 <= k)%nat -> length ts = (n + k)%nat -> a < b -> spaced_knots ts ->
  exists sp, make_spline KB n k (Some (map Fin ts)) interior (Fin a) (Fin b) normalize = Ok sp /\
  forall xs ys G', length ys = length xs ->
    let B := map (fun i => map (fun x => if (Rleb a x && Rleb x b)%bool then Bspline (fun m => nth m ts 0) k i x else 0) xs) (seq 0 n) in
    inv (map (map Fin) (gram B)) = map (map Fin) G' -> rectangular n n G' -> right_inverse n (gram B) G' ->
    exists alpha fit, get_coefficients inv sp (map Fin xs) (map Fin ys) = (map Fin alpha, map Fin fit, map (map Fin) (map (column B) (seq 0 (length xs)))) /\
      length alpha = n /\ fit = map (combination B alpha) (seq 0 (length xs)) /\
      (forall beta, length beta = n -> squared_error B ys alpha <= squared_error B ys beta) /\
      (forall beta, length beta = n -> (forall j, (j < length xs)%nat -> nth j ys 0 = combination B beta j) -> alpha = beta).
Proof. exact least_squares_spline. Qed.
Print Assumptions C95_least_squares_spline.
(** two basis functions of order one, three data points: the Gram matrix is diag(1, 2) *)
Example C95_case : let B := map (fun i => map (fun x => if (Rleb 0 x && Rleb x 1)%bool then Bspline (fun m => nth m [0; 1/2; 1] 0) 1 i x else 0) [1/4; 1/2; 3/4]) (seq 0 2) in
  spaced_knots [0; 1/2; 1] /\ gram B = [[1; 0]; [0; 2]] /\ rectangular 2 2 [[1; 0]; [0; 1/2]] /\ right_inverse 2 (gram B) [[1; 0]; [0; 1/2]].
Proof.
  set (B := map _ _). assert (E : B = [[1; 0; 0]; [0; 1; 1]]).
  { unfold B. cbn [seq map Bspline nth Nat.add]. repeat (rewrite Rleb_t by lra). rewrite (Rltb_t (1/4) (1/2)), (Rltb_f (1/2) (1/2)), (Rltb_f (3/4) (1/2)) by lra.
    rewrite (Rleb_f (1/2) (1/4)) by lra. repeat (rewrite Rltb_t by lra). repeat (rewrite Rleb_t by lra). reflexivity. }
  assert (Eg : gram B = [[1; 0]; [0; 2]]).
  { rewrite E. unfold gram, dot. cbn [map map2]. unfold Rlsum. cbn [fold_right]. repeat apply (f_equal2 cons); auto; lra. }
  cbv zeta. rewrite Eg. split; [|split; [auto|split; [split; [auto|repeat constructor]|]]].
  - intros i Hi. cbn in Hi. do 2 (destruct i as [|i]; [cbn; right; lra|]). lia.
  - intros i j Hi Hj. unfold dot, column. destruct i as [|[|i]], j as [|[|j]]; try lia; cbn; unfold Rlsum; cbn; lra.
Qed.

(** C101: unnormalised classes linear in y, any knots *)
Theorem C101_linear : forall s n k knots interior a b sp us coefs xs, s = KB \/ s = KLogX -> valid_range s a b -> (1 <= k)%nat -> (1 <= n)%nat ->
  make_spline s n k knots interior (Fin a) (Fin b) false = Ok sp -> sp_knots sp = map Fin us -> spaced_knots us -> length coefs = n -> (logx s = true -> Forall (fun x => 0 < x) xs) ->
  eval sp (map Fin xs) (map Fin coefs) = Ok (map Fin (map (fun x => within a b x (spline_sum us k coefs (coord s x))) xs)).
Proof. exact linear_value. Qed.
Print Assumptions C101_linear.
(** logarithmic classes: the exponential of the spline wherever that is above the smallest float *)
Theorem C101_logarithmic : forall s n k knots interior a b sp us coefs xs, logy s = true -> valid_range s a b -> (1 <= k)%nat -> (1 <= n)%nat ->
  make_spline s n k knots interior (Fin a) (Fin b) false = Ok sp -> sp_knots sp = map Fin us -> spaced_knots us -> length coefs = n -> (logx s = true -> Forall (fun x => 0 <= x) xs) ->
  Forall (fun x => a <= x <= b -> - FMAX < spline_sum us k coefs (coord s x)) xs ->
  eval sp (map Fin xs) (map Fin coefs) = Ok (map Fin (map (fun x => within a b x (exp (spline_sum us k coefs (coord s x)))) xs)).
Proof. exact log_value. Qed.
Print Assumptions C101_logarithmic.
(** BasisSpline: the M-spline mixture with the coefficients as relative weights *)
Theorem C101_basis_spline : forall n k knots interior a b sp us coefs xs, a < b -> (1 <= k)%nat -> (1 <= n)%nat ->
  make_spline KBasis n k knots interior (Fin a) (Fin b) false = Ok sp -> sp_knots sp = map Fin us -> spaced_knots us -> length coefs = n -> Rlsum coefs <> 0 ->
  eval sp (map Fin xs) (map Fin coefs) = Ok (map Fin (map (fun x => within a b x (mspline_sum us k coefs x / Rlsum coefs)) xs)).
Proof. exact basis_value_sum. Qed.
Print Assumptions C101_basis_spline.
(** normalisation: the values at any points divided by the trapezoid sum on the grid, in all five classes *)
Theorem C101_normalised : forall s n k knots interior a b sp sp0 coefs grid values xs ys,
  make_spline s n k knots interior a b true = Ok sp -> make_spline s n k knots interior a b false = Ok sp0 -> (1 <= n)%nat ->
  sp_grid sp = map Fin grid -> eval sp0 (map Fin grid) coefs = Ok (map Fin values) -> trapezoid grid values <> 0 -> eval sp0 xs coefs = Ok ys ->
  eval sp xs coefs = Ok (map (fun y => nmul y (Fin (/ trapezoid grid values))) ys).
Proof. exact normalised_value. Qed.
Print Assumptions C101_normalised.
Example C101_case : spaced_knots [0; 1; 2; 3] /\ spline_sum [0; 1; 2; 3] 2 [1; 3] (3/2) = 2 /\
  exists sp, make_spline KB 2 2 (Some (map Fin [0; 1; 2; 3])) None (Fin 1) (Fin 2) false = Ok sp /\ sp_knots sp = map Fin [0; 1; 2; 3].
Proof.
  split; [|split].
  - intros i Hi. cbn in Hi. do 3 (destruct i as [|i]; [cbn; right; lra|]). lia.
  - unfold spline_sum. cbn [length seq map nth]. unfold Bspline, ratio. cbn [Nat.add nth]. rewrite !Reqb_f by lra.
    rewrite (Rleb_t 0 (3/2)), (Rltb_f (3/2) 1), (Rltb_t (3/2) 2), (Rleb_t 1 (3/2)), (Rleb_f 2 (3/2)) by lra. cbn [andb]. unfold Rlsum. cbn [fold_right]. lra.
  - eexists. split; reflexivity.
Qed.

(** C102 *)
Theorem C102_components_are_densities : forall n k knots interior a b normalize sp us i, a < b -> (1 <= k)%nat ->
  make_spline KBasis n k knots interior (Fin a) (Fin b) normalize = Ok sp -> sp_knots sp = map Fin us -> spaced_knots us -> (i < n)%nat ->
  a <= nth i us 0 -> nth i us 0 < nth (i + k) us 0 -> nth (i + k) us 0 <= b ->
  exists f, (forall xs j, (j < length xs)%nat -> nth j (nth i (bases sp (map Fin xs)) []) NaN = Fin (f (nth j xs 0))) /\
    (forall x, 0 <= f x) /\ is_RInt f a b 1 /\ is_RInt (fun x => x * f x) a b (average (support_knots us k i)).
Proof. exact components_densities. Qed.
Print Assumptions C102_components_are_densities.
Theorem C102_bspline_area : forall n k knots interior a b normalize sp us i, a < b -> (1 <= k)%nat ->
  make_spline KB n k knots interior (Fin a) (Fin b) normalize = Ok sp -> sp_knots sp = map Fin us -> spaced_knots us -> (i < n)%nat ->
  a <= nth i us 0 -> nth (i + k) us 0 <= b ->
  exists f, (forall xs j, (j < length xs)%nat -> nth j (nth i (bases sp (map Fin xs)) []) NaN = Fin (f (nth j xs 0))) /\
    is_RInt f a b ((nth (i + k) us 0 - nth i us 0) / INR k).
Proof. exact bspline_area. Qed.
Print Assumptions C102_bspline_area.
(** clamped knots with a repeated first knot *)
Example C102_case : spaced_knots [0; 0; 1; 3] /\ support_knots [0; 0; 1; 3] 2 1 = [0; 1; 3] /\ average [0; 1; 3] = 4/3 /\
  exists sp, make_spline KBasis 2 2 (Some (map Fin [0; 0; 1; 3])) None (Fin 0) (Fin 3) false = Ok sp /\ sp_knots sp = map Fin [0; 0; 1; 3].
Proof.
  split; [|split; [reflexivity|split; [unfold average, Rlsum; cbn; lra|eexists; split; reflexivity]]].
  intros i Hi. cbn in Hi. do 3 (destruct i as [|i]; [cbn; (left; lra) || (right; lra)|]). lia.
Qed.
