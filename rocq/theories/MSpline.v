(** Model of gwinferno/interpolation.py: the basis-spline classes, the natural cubic spline and the bivariate spline. *)
From Verif Require Export Arr.
Open Scope R_scope.

(** The five one-dimensional classes: BasisSpline (interpolation.py:72-233), BSpline (236-317), LogXBSpline (320-357),
    LogYBSpline (360-407), LogXLogYBSpline (410-449). *)
Inductive skind := KBasis | KB | KLogX | KLogY | KLogXLogY.
Definition logx (s : skind) : bool := match s with KLogX | KLogXLogY => true | _ => false end.
Definition logy (s : skind) : bool := match s with KLogY | KLogXLogY => true | _ => false end.

(** self.knots[i] *)
Definition kn (knots : list num) (i : nat) : num := nth i knots NaN.

(** BasisSpline._basis (interpolation.py:128-149), the i-th M-spline of order k at one point.  The spline order is
    assumed to be at least one (the line for order 0 is never reached from order >= 1). *)
Fixpoint basis (knots : list num) (k i : nat) (x : num) : num :=
  if nlt (nsub (kn knots (i + k)) (kn knots i)) (Fin (1 / 10 ^ 6)) then Fin 0
  else match k with
       | O => Fin 0
       | S O => if (nge x (kn knots i) && nlt x (kn knots (i + 1)))%bool then ndiv (Fin 1) (nsub (kn knots (i + 1)) (kn knots i)) else Fin 0
       | S k' =>
           let v := nadd (nmul (nsub x (kn knots i)) (basis knots k' i x))
                         (nmul (nsub (kn knots (i + k)) x) (basis knots k' (i + 1) x)) in
           ndiv (nmul v (Fin (INR k))) (nmul (Fin (INR k')) (nsub (kn knots (i + k)) (kn knots i)))
       end.

(** One entry of self._bases: M-splines for BasisSpline (interpolation.py:151-161), rescaled to B-splines for the
    other classes (267-277). *)
Definition raw_basis (s : skind) (knots : list num) (k i : nat) (x : num) : num :=
  match s with
  | KBasis => basis knots k i x
  | _ => nmul (ndiv (nsub (kn knots (i + k)) (kn knots i)) (Fin (INR k))) (basis knots k i x)
  end.

(** jnp.where(jnp.less(x, lo) | jnp.greater(x, hi), oob, v) *)
Definition oob_where (lo hi x oob v : num) : num := if (nlt x lo || ngt x hi)%bool then oob else v.

(** One entry of the design matrix: BasisSpline.bases (interpolation.py:163-175), LogXBSpline.bases (346-357),
    LogYBSpline.bases (394-407), LogXLogYBSpline.bases (435-449), each calling its parent's. *)
Definition basis_value (s : skind) (knots : list num) (k : nat) (lo hi : num) (i : nat) (x : num) : num :=
  let u := if logx s then nlog x else x in
  let parent := oob_where lo hi u (Fin 0) (raw_basis s knots k i u) in
  match s with
  | KBasis | KB | KLogX => parent
  | KLogY => oob_where lo hi u NInf parent
  | KLogXLogY => oob_where lo hi u NInf (oob_where lo hi u NInf parent)
  end.

Record spline := Spline {
  sp_kind : skind; sp_N : nat; sp_order : nat; sp_lo : num; sp_hi : num; sp_knots : list num;
  sp_normalize : bool; sp_grid : list num; sp_grid_bases : list (list num); sp_vols : list num }.

(** Rows of the design matrix (shape (N, len xs)). *)
Definition design (s : skind) (knots : list num) (k N : nat) (lo hi : num) (xs : list num) : list (list num) :=
  map (fun i => map (basis_value s knots k lo hi i) xs) (seq 0 N).
Definition bases (sp : spline) (xs : list num) : list (list num) :=
  design (sp_kind sp) (sp_knots sp) (sp_order sp) (sp_N sp) (sp_lo sp) (sp_hi sp) xs.

(** Knot construction (interpolation.py:98-106): interior knots default to n_df-k+2 equally spaced points; the knots
    are equally spaced whatever the interior knots are.  A negative count raises in np.linspace, fewer than two
    interior knots in the indexing. *)
Definition make_knots (n_df k : nat) (knots interior : option (list num)) (lo hi : num) : result (list num) :=
  match knots with
  | Some ks => Ok ks
  | None =>
      do inner <- match interior with
                  | Some l => Ok l
                  | None => if (Z.of_nat n_df - Z.of_nat k + 2 <? 0)%Z then Err ValueError else Ok (nlinspace lo hi (n_df + 2 - k))
                  end ;
      match inner with
      | a :: b :: _ =>
          let dx := nsub b a in
          Ok (nlinspace (nsub lo (nmul dx (Fin (INR (k - 1))))) (nadd hi (nmul dx (Fin (INR (k - 1))))) (length inner + (k - 1) * 2))
      | _ => Err IndexError
      end
  end.

(** Number of points of the normalisation grid: 1000, or 1500 for LogXLogYBSpline (interpolation.py:113, 343, 379, 432). *)
Definition grid_size (s : skind) : nat := match s with KLogXLogY => 15 * (10 * 10) | _ => 10 * (10 * 10) end.

(** The constructors (interpolation.py:73-117, 237-265, 321-344, 361-381, 411-433), for order k >= 1.  [lo], [hi],
    [knots], [interior] as given by the caller; the logarithmic classes take their logarithms first.  The intermediate grid LogYBSpline.__init__
    builds on behalf of LogXLogYBSpline is overwritten or never read, and left out. *)
Definition make_spline (s : skind) (n_df k : nat) (knots interior : option (list num)) (lo hi : num) (normalize : bool) : result spline :=
  let lg := fun l => if logx s then map nlog l else l in
  let lo' := if logx s then nlog lo else lo in
  let hi' := if logx s then nlog hi else hi in
  do ks <- make_knots n_df k (option_map lg knots) (option_map lg interior) lo' hi' ;
  if negb (Nat.eqb (length ks) (n_df + k)) then Err AssertionError else
  let grid := if normalize then (if logx s then nlinspace (nexp lo') (nexp hi') (grid_size s) else nlinspace lo' hi' (grid_size s)) else [] in
  let gb := if normalize then design s ks k n_df lo' hi' grid else [] in
  let vols := match s with KBasis => if normalize then map (fun row => ntrapz row grid) gb else repeat (Fin 1) n_df | _ => repeat (Fin 1) n_df end in
  Ok (Spline s n_df k lo' hi' ks normalize grid gb vols).

(** jnp.einsum("i...,i->...", bases, coefs): the sizes must match. *)
Definition einsum (rows : list (list num)) (coefs : list num) : result (list num) :=
  if Nat.eqb (length rows) (length coefs)
  then Ok (map (fun j => nsum (map2 (fun r c => nmul (nth j r NaN) c) rows coefs)) (seq 0 (length (hd [] rows))))
  else Err ValueError.

(** jnp.exp with float32's underflow to zero, at arguments at or below the most negative finite float
    (float32 already underflows below -104); above, the exact exponential. *)
Definition fexp (x : num) : num := match x with Fin a => if Rleb a (- FMAX) then Fin 0 else Fin (exp a) | _ => nexp x end.
(** jnp.nan_to_num(x, nan=-inf, posinf=-inf): the three replacements are done one after the other, the last one
    turning -inf into the most negative finite float. *)
Definition log_fix (x : num) : num := match x with Fin a => Fin a | _ => Fin (- FMAX) end.

(** self._project (interpolation.py:291-302, LogYBSpline 380-393). *)
Definition project_raw (s : skind) (rows : list (list num)) (coefs : list num) : result (list num) :=
  do e <- einsum rows coefs ;
  Ok (if logy s then map (fun x => fexp (log_fix x)) e else e).

(** self.norm (BasisSpline 115-126, BSpline 279-290). *)
Definition spline_norm (sp : spline) (coefs : list num) : result num :=
  if sp_normalize sp then
    match sp_kind sp with
    | KBasis => if Nat.eqb (length (sp_vols sp)) (length coefs) then Ok (ndiv (Fin 1) (nsum (map2 nmul (sp_vols sp) coefs))) else Err ValueError
    | s => do p <- project_raw s (sp_grid_bases sp) coefs ; Ok (ndiv (Fin 1) (ntrapz p (sp_grid sp)))
    end
  else Ok (Fin 1).

(** project (BasisSpline 195-207, BSpline 304-317).  BasisSpline first divides the coefficients by their sum. *)
Definition project (sp : spline) (rows : list (list num)) (coefs : list num) : result (list num) :=
  match sp_kind sp with
  | KBasis =>
      let coefs := map (fun c => ndiv c (nsum coefs)) coefs in
      do e <- einsum rows coefs ; do n <- spline_norm sp coefs ; Ok (map (fun v => nmul v n) e)
  | s => do p <- project_raw s rows coefs ; do n <- spline_norm sp coefs ; Ok (map (fun v => nmul v n) p)
  end.

(** eval / __call__ (interpolation.py:209-233) *)
Definition eval (sp : spline) (xs coefs : list num) : result (list num) := project sp (bases sp xs) coefs.

(** ** Least squares: BasisSpline.get_coefficients (interpolation.py:177-193) *)
Definition transpose (n : nat) (m : list (list num)) : list (list num) := map (fun j => map (fun r => nth j r NaN) m) (seq 0 n).
Definition mat_vec (m : list (list num)) (v : list num) : list num := map (fun r => ndot r v) m.
(** a @ b with b given by its columns *)
Definition mat_mul (a bcols : list (list num)) : list (list num) := map (fun r => map (fun c => ndot r c) bcols) a.
(** [inv] stands for jnp.linalg.inv.  Returns the coefficients, the fitted values and the design matrix. *)
Definition get_coefficients (inv : list (list num) -> list (list num)) (sp : spline) (xs ys : list num) : list num * list num * list (list num) :=
  let bt := bases sp xs in
  let dm := transpose (length xs) bt in
  let btbi := inv (mat_mul bt bt) in
  let alpha := mat_vec (mat_mul btbi (transpose (length xs) bt)) ys in
  (alpha, mat_vec dm alpha, dm).

(** ** NaturalCubicUnivariateSpline (interpolation.py:13-69) *)
(** The matrix A assembled in __init__ (lines 27-37): entry in row i, column j for n data points. *)
Definition nat_matrix (h : list num) (n i j : nat) : num :=
  if Nat.eqb i j then (if Nat.eqb i 0 then Fin 1 else if Nat.eqb i (n - 1) then Fin 1
                       else nmul (Fin 2) (nadd (nth (i - 1) h NaN) (nth i h NaN)))
  else if Nat.eqb j (i + 1) then (if Nat.eqb i 0 then Fin 0 else nth i h NaN)
  else if Nat.eqb i (j + 1) then (if Nat.eqb i (n - 1) then Fin (-1) else nth j h NaN)
  else Fin 0.
(** The right-hand side s (lines 38-39). *)
Definition nat_rhs (h p : list num) (n i : nat) : num :=
  if Nat.eqb i 0 then Fin 0 else if Nat.eqb i (n - 1) then Fin 0
  else nmul (Fin 3) (nsub (ndiv (nth i p NaN) (nth i h NaN)) (ndiv (nth (i - 1) p NaN) (nth (i - 1) h NaN))).

Record ncs := NCS { nc_x : list num; nc_y : list num; nc_c : list num }.
(** __init__ (lines 20-42); [solve] stands for jnp.linalg.solve. *)
Definition make_ncs (solve : nat -> (nat -> nat -> num) -> (nat -> num) -> list num) (x y : list num) (coefficients : option (list num)) : result ncs :=
  if negb (Nat.eqb (length x) (length y)) then Err AssertionError else
  let n := length x in
  match coefficients with
  | Some c => Ok (NCS x y c)
  | None => if Nat.ltb 3 n then Ok (NCS x y (solve n (nat_matrix (ndiff x) n) (nat_rhs (ndiff x) (ndiff y) n))) else Err AssertionError
  end.
(** jnp.digitize(x, knots) - 1 clipped to 0..n-2 (lines 58-59), for increasing knots. *)
Definition nc_index (knots : list num) (x : num) : nat :=
  Nat.min (length (filter (fun k => nle k x) knots) - 1) (length knots - 2).
(** __call__ and _compute_coeffs (lines 52-69) *)
Definition nc_call (s : ncs) (x : num) : num :=
  let i := nc_index (nc_x s) x in
  let t := nsub x (nth i (nc_x s) NaN) in
  let h := nth i (ndiff (nc_x s)) NaN in
  let c := nth i (nc_c s) NaN in let c1 := nth (i + 1) (nc_c s) NaN in
  let a := nth i (nc_y s) NaN in let a1 := nth (i + 1) (nc_y s) NaN in
  let b := nsub (ndiv (nsub a1 a) h) (ndiv (nmul (nadd (nmul (Fin 2) c) c1) h) (Fin 3)) in
  let d := ndiv (nsub c1 c) (nmul (Fin 3) h) in
  nadd (nadd (nadd a (nmul b t)) (nmul c (npowi t 2))) (nmul d (npowi t 3)).

(** tree_flatten (lines 44-46) returns a tuple of three children; tree_unflatten (48-51) takes one argument.
    JAX flattens a registered class by calling tree_flatten, which must return a pair (children, aux), and rebuilds it
    with tree_unflatten(aux, children); a tuple of another length raises ValueError and a wrong number of arguments TypeError. *)
Definition nc_tree_flatten (s : ncs) : list (list num) := [nc_x s; nc_y s; nc_c s].
Inductive pair_or_more := Pair (aux children : list (list num)) | Tuple (l : list (list num)).
Definition nc_flatten_result (s : ncs) : pair_or_more := Tuple (nc_tree_flatten s).
Definition nc_tree_unflatten (args : nat) (children : list (list num)) : result ncs :=
  if Nat.eqb args 1 then match children with [x; y; c] => make_ncs (fun _ _ _ => []) x y (Some c) | _ => Err ValueError end else Err TypeError.
Definition jax_round_trip (s : ncs) : result ncs :=
  match nc_flatten_result s with Pair _ children => nc_tree_unflatten 2 children | Tuple _ => Err ValueError end.

(** ** RectBivariateBasisSpline.bases (interpolation.py:508-527): evaluates both one-dimensional bases, forms all
    products and calls self.reset_bases, which does not exist (the method is called _reset_bases). *)
Definition outer_products (xb yb : list (list num)) : list (list num) :=
  flat_map (fun yj => map (fun xi => map2 nmul xi yj) xb) yb.
(** .reshape(xdf, ydf, ...): entry [i,j] of the reshaped array *)
Definition reshaped (ydf i j : nat) (l : list (list num)) : list num := nth (i * ydf + j) l [].
Definition rect_bases (has_reset : bool) (xsp ysp : spline) (xs ys : list num) : result (nat -> nat -> list num) :=
  let l := outer_products (bases xsp xs) (bases ysp ys) in
  if has_reset then Ok (fun i j => reshaped (sp_N ysp) i j l) else Err AttributeError.
(** the class as it stands *)
Definition rect_bases_actual := rect_bases false.

(** __init__ (interpolation.py:453-488): both one-dimensional splines are built without normalisation; with normalize=True
    bases is called on a 750 x 750 mesh of the two ranges. *)
Definition make_rect (xdf ydf kx ky : nat) (sx sy : skind) (xlo xhi ylo yhi : num) (normalize : bool) : result (spline * spline) :=
  do xsp <- make_spline sx xdf kx None None xlo xhi false ;
  do ysp <- make_spline sy ydf ky None None ylo yhi false ;
  let gx := nlinspace xlo xhi (75 * 10) in let gy := nlinspace ylo yhi (75 * 10) in
  if normalize then do _ <- rect_bases_actual xsp ysp (flat_map (fun _ => gx) gy) (flat_map (fun y => map (fun _ => y) gx) gy) ; Ok (xsp, ysp)
  else Ok (xsp, ysp).
