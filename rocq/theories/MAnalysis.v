(** gwinferno/pipeline/analysis.py: importance-sampling sums and the hierarchical likelihood. *)
From Coq Require Export String DecimalString Decimal.
From Verif Require Export Arr.
Open Scope R_scope.

(** A 2-d array: number of columns and rows (every row has that many entries, see [rect]). *)
Record arr2 : Type := Arr2 { a_cols : nat; a_rows : list (list num) }.
Definition rect (w : arr2) : Prop := Forall (fun r => length r = a_cols w) (a_rows w).

(** jax.scipy.special.logsumexp over one axis: the maximum (over -inf and the entries) is
    subtracted when it is finite, then log(sum(exp(.))) and the maximum is added back
    (jax/_src/ops/special.py, logsumexp without [b]). *)
Definition lse_shift (l : list num) : num :=
  let m := nmaxl NInf l in if nisfin m then m else Fin 0.
Definition nlogsumexp (l : list num) : num :=
  nadd (nlog (nsum (map (fun a => nexp (nsub a (lse_shift l))) l))) (lse_shift l).

(** analysis.py:76-86, one event (one row of [weights]); n = weights.shape[1].
    Result: (logBF, logn_eff, variance). *)
Definition event_stats (log : bool) (n : nat) (row : list num) : num * num * num :=
  let nn := Fin (INR n) in
  let '(logBF, logn_eff) :=
    if log then
      let logBF := nlogsumexp row in
      let logn := nsub (nmul (Fin 2) logBF) (nlogsumexp (map (fun x => nmul (Fin 2) x) row)) in
      (nsub logBF (nlog nn), logn)
    else
      let BF := nsum row in
      let n_eff := ndiv (npowi BF 2) (nsum (map (fun x => npowi x 2) row)) in
      (nlog (ndiv BF nn), nlog n_eff) in
  (logBF, logn_eff, nsub (ndiv (Fin 1) (nexp logn_eff)) (ndiv (Fin 1) nn)).

(** analysis.py:50-88 per_event_log_bayes_factors(weights, log): three arrays, one entry per event.
    [1 / weights.shape[1]] divides Python integers and raises when there are no samples. *)
Definition per_event_log_bayes_factors (log : bool) (weights : arr2) : result (list num * list num * list num) :=
  match a_cols weights with
  | O => Err ZeroDivision
  | n => let st := map (event_stats log n) (a_rows weights) in
         Ok (map (fun t => fst (fst t)) st, map (fun t => snd (fst t)) st, map (fun t => snd t) st)
  end.

(** The [Ninj] argument of the jit-compiled detection_efficiency: a Python int becomes a traced
    int32 (raising OverflowError outside the int32 range), a float stays a float. *)
Inductive count : Type := CInt (z : Z) | CFloat (x : num).

Definition int32_wrap (z : Z) : Z := ((z + 2 ^ 31) mod 2 ^ 32 - 2 ^ 31)%Z.

(** (Ninj as float, Ninj**2 as float): the square of an int32 wraps around. *)
Definition count_num (c : count) : result (num * num) :=
  match c with
  | CInt z => if ((- 2 ^ 31 <=? z) && (z <? 2 ^ 31))%Z%bool
              then Ok (Fin (IZR z), Fin (IZR (int32_wrap (z * z)))) else Err OtherError
  | CFloat x => Ok (x, npowi x 2)
  end.

(** analysis.py:91-136 detection_efficiency(weights, Ninj, log): (logmu, logn_eff, variance). *)
Definition detection_efficiency (log : bool) (weights : list num) (Ninj : count) : result (num * num * num) :=
  do (N, Nsq) <- count_num Ninj;
  let '(logmu, logn_eff) :=
    if log then
      let logmu := nsub (nlogsumexp weights) (nlog N) in
      let mu := nexp logmu in
      let var := nsub (ndiv (nsum (map (fun x => npowi (nexp x) 2) weights)) Nsq) (ndiv (npowi mu 2) N) in
      (logmu, nsub (nmul (Fin 2) logmu) (nlog var))
    else
      let mu := ndiv (nsum weights) N in
      let var := nsub (ndiv (nsum (map (fun x => npowi x 2) weights)) Nsq) (ndiv (npowi mu 2) N) in
      let logmu := nlog mu in
      (logmu, nsub (nmul (Fin 2) logmu) (nlog var)) in
  Ok (logmu, logn_eff, nsub (ndiv (Fin 1) (nexp logn_eff)) (ndiv (Fin 1) N)).

(** ** numpyro sites: what one evaluation of the model records, in order. *)
Inductive sval : Type := Scal (x : num) | Vec (l : list num) | IVec (l : list nat).
Inductive kind : Type := Plate | Sample | Deterministic | Factor.
Record site : Type := Site { s_kind : kind; s_name : string; s_val : sval }.

(** pe_weights: one 2-d array, or (categorical) a Python list of them, one per sub-population. *)
Inductive pe_arg : Type := PEOne (w : arr2) | PEMany (ws : list arr2).

(** jnp.where(Qs[i] == 0, pe_weights[0][i], pe_weights[1][i]) (analysis.py:243), with [i] the
    whole plate 0..Nobs-1 and Qs one draw per event. *)
Definition mix_weights (qs : list nat) (w0 w1 : arr2) : arr2 :=
  Arr2 (a_cols w0) (map2 (fun q rr => if Nat.eqb q 0 then fst rr else snd rr) qs (combine (a_rows w0) (a_rows w1))).

(** f"{n}" *)
Definition dec (n : nat) : string := NilZero.string_of_uint (Nat.to_uint n).

(** jax.random.choice(key, n, p=p) for one draw: cumulative sums, r = total * (1 - uniform(key)),
    searchsorted from the left in an ordering that puts NaN last; the index is clamped to the array. *)
Definition sort_le (x y : num) : bool := match x, y with _, NaN => true | NaN, _ => false | _, _ => nle x y end.
Fixpoint ncumsum (acc : num) (l : list num) : list num :=
  match l with [] => [] | x :: r => nadd acc x :: ncumsum (nadd acc x) r end.
Fixpoint searchsorted (l : list num) (v : num) : nat :=
  match l with [] => O | x :: r => if sort_le v x then O else S (searchsorted r v) end.
Definition random_choice (u : num) (p : list num) : nat :=
  let c := ncumsum (Fin 0) p in
  let r := nmul (last c NaN) (nsub (Fin 1) u) in
  Nat.min (searchsorted c r) (length p - 1).

Fixpoint assoc {A} (k : string) (l : list (string * A)) : result A :=
  match l with [] => Err KeyError | (k', v) :: r => if String.eqb k k' then Ok v else assoc k r end.

(** arr[ev, idx] with JAX's clamping of out-of-range indices *)
Definition clampi (n i : nat) : nat := Nat.min i (n - 1).
Definition get1 (l : list num) (i : nat) : num := nth (clampi (length l) i) l NaN.
Definition get_row (w : arr2) (i : nat) : list num := nth (clampi (length (a_rows w)) i) (a_rows w) [].
Definition get2 (w : arr2) (i j : nat) : num := get1 (get_row w i) j.

(** analysis.py:320-325 / 326-332: weight zero for masses outside the cuts *)
Definition cut_weight (m1min m2min mmax w m1 q : num) : num :=
  if (nlt m1 m1min || ngt m1 mmax || nlt (nmul m1 q) m2min)%bool then Fin 0 else w.
Definition map3 {A B C D} (f : A -> B -> C -> D) xs ys zs := map2 (fun x yz => f x (fst yz) (snd yz)) xs (combine ys zs).

(** What the model function is given besides the weights. *)
Record hl_args : Type := HL {
  total_inj : count; Nobs : nat; Tobs : num; surveyed_hypervolume : option num;
  categorical : bool; marginal_qs : bool; indv_weights : list arr2;
  reconstruct_rate : bool; marginalize_selection : bool; min_neff_cut : bool; max_variance_cut : bool;
  posterior_predictive_check : bool; param_names : option (list string);
  pedata : option (list (string * arr2)); injdata : option (list (string * list num));
  m2min : num; m1min : num; mmax : num; logw : bool }.

(** The random draws: sub-population labels (Categorical sample), the Gamma(Nobs) sample, and for
    each event key PRNGKey(ev) the two uniforms behind random.choice. *)
Record draws : Type := Draws { d_qs : list nat; d_rate : num; d_obs : nat -> num; d_pred : nat -> num }.

(** Writer monad: recorded sites and a result. *)
Definition M (A : Type) : Type := (list site * result A)%type.
Definition ret {A} (a : A) : M A := ([], Ok a).
Definition raise {A} (e : exn) : M A := ([], Err e).
Definition mbind {A B} (m : M A) (f : A -> M B) : M B :=
  let '(s, r) := m in match r with Ok a => let '(s', r') := f a in (s ++ s', r') | Err e => (s, Err e) end.
Definition tell (s : site) : M unit := ([s], Ok tt).
Definition lift {A} (r : result A) : M A := ([], r).
Notation "'let!' x ':=' m 'in' k" := (mbind m (fun x => k)) (at level 200, x pattern, m at level 100, k at level 200).
Definition det (n : string) (v : num) : M unit := tell (Site Deterministic n (Scal v)).
Definition when (b : bool) (m : M unit) : M unit := if b then m else ret tt.
Fixpoint for_each {A} (l : list A) (f : A -> M unit) : M unit :=
  match l with [] => ret tt | a :: r => let! _ := f a in for_each r f end.

Definition MOSTNEG : num := nan_to_num NInf.

Open Scope string_scope.

(** analysis.py:312-355, the posterior predictive check (weights in linear space if log).
    A list of weight arrays makes jnp.exp / jnp.where raise TypeError. *)
Definition ppc (a : hl_args) (d : draws) (pe_weights : pe_arg) (inj_weights : list num) : M unit :=
  match param_names a, injdata a, pedata a with
  | Some ps, Some inj, Some pe =>
      match pe_weights with
      | PEMany _ => raise TypeError
      | PEOne w =>
        let w := if logw a then Arr2 (a_cols w) (map (map nexp) (a_rows w)) else w in
        let iw := if logw a then map nexp inj_weights else inj_weights in
        let! pm1 := lift (assoc "mass_1" pe) in
        let! pq := lift (assoc "mass_ratio" pe) in
        let w := Arr2 (a_cols w) (map3 (map3 (cut_weight (m1min a) (m2min a) (mmax a))) (a_rows w) (a_rows pm1) (a_rows pq)) in
        let! im1 := lift (assoc "mass_1" inj) in
        let! iq := lift (assoc "mass_ratio" inj) in
        let iw := map3 (cut_weight (m1min a) (m2min a) (mmax a)) iw im1 iq in
        for_each (seq 0 (Nobs a)) (fun ev =>
          let row := get_row w ev in
          let obs_idx := random_choice (d_obs d ev) (map (fun x => ndiv x (nsum row)) row) in
          let! _ := when (marginal_qs a)
            (for_each (combine (seq 0 (length (indv_weights a))) (indv_weights a)) (fun iw_ =>
               det ("cat_frac_subpop_" ++ dec (S (fst iw_)) ++ "_event_" ++ dec ev)
                   (ndiv (get2 (snd iw_) ev obs_idx) (get2 w ev obs_idx)))) in
          let pred_idx := random_choice (d_pred d ev) (map (fun x => ndiv x (nsum iw)) iw) in
          for_each ps (fun p =>
            let! pv := lift (assoc p pe) in
            let! _ := det (p ++ "_obs_event_" ++ dec ev) (get2 pv ev obs_idx) in
            let! iv := lift (assoc p inj) in
            det (p ++ "_pred_event_" ++ dec ev) (get1 iv pred_idx)))
      end
  | _, _, _ => ret tt
  end.

(** analysis.py:238-248: the per-event sums, with the categorical branch. *)
Definition event_part (a : hl_args) (d : draws) (pe_weights : pe_arg) : M (list num * list num * list num) :=
  if categorical a then
    let! _ := tell (Site Plate "nObs" (IVec (seq 0 (Nobs a)))) in
    let! _ := tell (Site Sample "Qs" (IVec (d_qs d))) in
    match pe_weights with
    | PEMany (w0 :: w1 :: _) => lift (per_event_log_bayes_factors (logw a) (mix_weights (d_qs d) w0 w1))
    | PEMany _ => raise IndexError
    | PEOne _ => raise OtherError
    end
  else match pe_weights with
       | PEOne w => lift (per_event_log_bayes_factors (logw a) w)
       | PEMany _ => raise TypeError
       end.

(** analysis.py:139-356 hierarchical_likelihood.  [Nobs] is a Python int.  The categorical branch on a
    single 2-d array (indexing rows instead of sub-populations) is not modelled (OtherError). *)
Definition hierarchical_likelihood (a : hl_args) (d : draws) (pe_weights : pe_arg) (inj_weights : list num) : M (option num) :=
  if (max_variance_cut a && (marginalize_selection a || min_neff_cut a))%bool then raise ValueError else
  let nobs := Fin (INR (Nobs a)) in
  let! (logBFs, logn_effs, variances) := event_part a d pe_weights in
  let! (log_det_eff, logn_eff_inj, variance) := lift (detection_efficiency (logw a) inj_weights (total_inj a)) in
  let! _ := det "log_nEff_inj" logn_eff_inj in
  let! _ := tell (Site Deterministic "log_nEffs" (Vec logn_effs)) in
  let! _ := tell (Site Deterministic "logBFs" (Vec logBFs)) in
  let! _ := det "detection_efficiency" (nexp log_det_eff) in
  let! _ := tell (Site Deterministic "variance_log_BFs" (Vec variances)) in
  let! _ := det "variance_log_detection_efficiency" variance in
  let! rate :=
    if reconstruct_rate a then
      match surveyed_hypervolume a with
      | None => raise TypeError
      | Some vt =>
        let total_vt := nmul (ndiv vt (Fin (10 ^ 9))) (Tobs a) in
        let! _ := det "surveyed_hypervolume" total_vt in
        let! _ := tell (Site Sample "unscaled_rate" (Scal (d_rate d))) in
        let rate := ndiv (ndiv (d_rate d) (nexp log_det_eff)) total_vt in
        let! _ := det "rate" rate in
        ret (Some rate)
      end
    else ret None in
  let log_det_eff := if marginalize_selection a
    then nsub log_det_eff (ndiv (nadd (Fin 3) nobs) (nmul (Fin 2) (nexp logn_eff_inj))) else log_det_eff in
  let log_det_eff := if min_neff_cut a
    then nwhere (nge logn_eff_inj (nlog (nmul (Fin 4) nobs))) log_det_eff PInf else log_det_eff in
  let sel := nwhere (match log_det_eff with PInf | NInf => true | _ => false end) MOSTNEG (nmul (nneg nobs) log_det_eff) in
  let! _ := det "selection_factor" sel in
  let sumlogBFs := nsum logBFs in
  let! _ := det "sum_logBFs" sumlogBFs in
  let log_l := nadd sel sumlogBFs in
  let log_l := nwhere (nisnan log_l) MOSTNEG (nan_to_num log_l) in
  let! _ := det "log_l" log_l in
  let! log_l :=
    if min_neff_cut a then
      match map nan_to_num logn_effs with
      | [] => raise ValueError
      | x :: r =>
        let min_n_effs := nexp (nminl x r) in
        let l := nwhere (nle min_n_effs nobs) MOSTNEG log_l in
        let! _ := det "neff_less_Nobs" l in ret l
      end
    else ret log_l in
  let variance := nadd (nmul (npowi nobs 2) variance) (nsum variances) in
  let! _ := det "variance_log_likelihood" variance in
  let! log_l :=
    if max_variance_cut a then
      let l := nwhere (nle variance (Fin 1)) log_l MOSTNEG in
      let! _ := det "variance_less_1" l in ret l
    else ret log_l in
  let! _ := tell (Site Factor "log_likelihood" (Scal log_l)) in
  let! _ := when (posterior_predictive_check a) (ppc a d pe_weights inj_weights) in
  ret rate.
