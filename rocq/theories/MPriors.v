(** Model of gwinferno/preprocess/priors.py. *)
From Verif Require Export Num Arr MConversions.
Open Scope num_scope.

(** priors.py:38-76, one element (np.select: first true condition, default 0) *)
Definition chi_effective_prior_from_aligned_spins (chi q amax : num) : num :=
  let caseA := ngt chi (amax * (Fin 1 - q) / (Fin 1 + q)) && nle chi amax in
  let caseB := nlt chi (nneg amax * (Fin 1 - q) / (Fin 1 + q)) && nge chi (nneg amax) in
  let caseC := nge chi (nneg amax * (Fin 1 - q) / (Fin 1 + q)) && nle chi (amax * (Fin 1 - q) / (Fin 1 + q)) in
  if caseA then npowi (Fin 1 + q) 2 * (amax - chi) / (Fin 4 * q * npowi amax 2)
  else if caseB then npowi (Fin 1 + q) 2 * (amax + chi) / (Fin 4 * q * npowi amax 2)
  else if caseC then (Fin 1 + q) / (Fin 2 * amax)
  else Fin 0.

(** np.arctanh *)
Definition natanh (x : num) : num :=
  match x with
  | Fin a => if Rltb (-1) a && Rltb a 1 then Fin (ln ((1 + a) / (1 - a)) / 2)
             else if Reqb a 1 then PInf else if Reqb a (-1) then NInf else NaN
  | _ => NaN
  end.

(** priors.py:100-108: the seven cases as conditions on |chi_eff| (arguments already abs'ed) *)
Definition iso_caseZ (chi : num) : bool := neqb chi (Fin 0).
Definition iso_b1 (q amax : num) : num := amax * (Fin 1 - q) / (Fin 1 + q).
Definition iso_b2 (q amax : num) : num := q * amax / (Fin 1 + q).
Definition iso_b3 (q amax : num) : num := amax / (Fin 1 + q).
Definition iso_caseA (chi q amax : num) : bool :=
  ngt chi (Fin 0) && nlt chi (iso_b1 q amax) && nlt chi (iso_b2 q amax).
Definition iso_caseB (chi q amax : num) : bool := nlt chi (iso_b1 q amax) && ngt chi (iso_b2 q amax).
Definition iso_caseC (chi q amax : num) : bool := ngt chi (iso_b1 q amax) && nlt chi (iso_b2 q amax).
Definition iso_caseD (chi q amax : num) : bool :=
  ngt chi (iso_b1 q amax) && nlt chi (iso_b3 q amax) && nge chi (iso_b2 q amax).
Definition iso_caseE (chi q amax : num) : bool :=
  ngt chi (iso_b1 q amax) && ngt chi (iso_b3 q amax) && nlt chi amax.
Definition iso_caseF (chi amax : num) : bool := nge chi amax.

Section Formulas.
(** [Di] is the real part of priors.Di (priors.py:20-35, scipy's Spence function of a complex
    argument).  All other factors are real where a case is selected, so np.real (line 196) of the
    whole expression uses only the real part of Di. *)
Variable Di : num -> num.
Variables chi q amax : num.
Definition iso_pref : num := (Fin 1 + q) / (Fin 4 * q * npowi amax 2).
(** priors.py:111 *)
Definition iso_Z : num := (Fin 1 + q) / (Fin 2 * amax) * (Fin 2 - nlog q).
(** priors.py:113-121 *)
Definition iso_A : num :=
  iso_pref *
  (q * amax * (Fin 4 + Fin 2 * nlog amax - nlog (npowi q 2 * npowi amax 2 - npowi (Fin 1 + q) 2 * npowi chi 2))
   - Fin 2 * (Fin 1 + q) * chi * natanh ((Fin 1 + q) * chi / (q * amax))
   + (Fin 1 + q) * chi * (Di (nneg q * amax / ((Fin 1 + q) * chi)) - Di (q * amax / ((Fin 1 + q) * chi)))).
(** priors.py:123-133 *)
Definition iso_B : num :=
  iso_pref *
  (Fin 4 * q * amax
   + Fin 2 * q * amax * nlog amax
   - Fin 2 * (Fin 1 + q) * chi * natanh (q * amax / ((Fin 1 + q) * chi))
   - q * amax * nlog (npowi (Fin 1 + q) 2 * npowi chi 2 - npowi q 2 * npowi amax 2)
   + (Fin 1 + q) * chi * (Di (nneg q * amax / ((Fin 1 + q) * chi)) - Di (q * amax / ((Fin 1 + q) * chi)))).
(** priors.py:135-147 *)
Definition iso_C : num :=
  iso_pref *
  (Fin 2 * (Fin 1 + q) * (amax - chi)
   - (Fin 1 + q) * chi * npowi (nlog amax) 2
   + (amax + (Fin 1 + q) * chi * nlog ((Fin 1 + q) * chi)) * nlog (q * amax / (amax - (Fin 1 + q) * chi))
   - (Fin 1 + q) * chi * nlog amax * (Fin 2 + nlog q - nlog (amax - (Fin 1 + q) * chi))
   + q * amax * nlog (amax / (q * amax - (Fin 1 + q) * chi))
   + (Fin 1 + q) * chi * nlog ((amax - (Fin 1 + q) * chi) * (q * amax - (Fin 1 + q) * chi) / q)
   + (Fin 1 + q) * chi * (Di (Fin 1 - amax / ((Fin 1 + q) * chi)) - Di (q * amax / ((Fin 1 + q) * chi)))).
(** priors.py:149-162 *)
Definition iso_D : num :=
  iso_pref *
  (nneg chi * npowi (nlog amax) 2
   + Fin 2 * (Fin 1 + q) * (amax - chi)
   + q * amax * nlog (amax / ((Fin 1 + q) * chi - q * amax))
   + amax * nlog (q * amax / (amax - (Fin 1 + q) * chi))
   - chi * nlog amax * (Fin 2 * (Fin 1 + q) - nlog ((Fin 1 + q) * chi) - q * nlog ((Fin 1 + q) * chi / amax))
   + (Fin 1 + q) * chi * nlog ((nneg q * amax + (Fin 1 + q) * chi) * (amax - (Fin 1 + q) * chi) / q)
   + (Fin 1 + q) * chi * nlog (amax / ((Fin 1 + q) * chi)) * nlog ((amax - (Fin 1 + q) * chi) / q)
   + (Fin 1 + q) * chi * (Di (Fin 1 - amax / ((Fin 1 + q) * chi)) - Di (q * amax / ((Fin 1 + q) * chi)))).
(** priors.py:164-177 *)
Definition iso_E : num :=
  iso_pref *
  (Fin 2 * (Fin 1 + q) * (amax - chi)
   - (Fin 1 + q) * chi * npowi (nlog amax) 2
   + nlog amax * (amax - Fin 2 * (Fin 1 + q) * chi - (Fin 1 + q) * chi * nlog (q / ((Fin 1 + q) * chi - amax)))
   - amax * nlog (((Fin 1 + q) * chi - amax) / q)
   + (Fin 1 + q) * chi * nlog (((Fin 1 + q) * chi - amax) * ((Fin 1 + q) * chi - q * amax) / q)
   + (Fin 1 + q) * chi * nlog ((Fin 1 + q) * chi) * nlog (q * amax / ((Fin 1 + q) * chi - amax))
   - q * amax * nlog (((Fin 1 + q) * chi - q * amax) / amax)
   + (Fin 1 + q) * chi * (Di (Fin 1 - amax / ((Fin 1 + q) * chi)) - Di (q * amax / ((Fin 1 + q) * chi)))).

(** priors.py:183,190-194: np.select over the seven cases; [None] = on a boundary (no case) *)
Definition iso_select : option num :=
  if iso_caseZ chi then Some iso_Z
  else if iso_caseA chi q amax then Some iso_A
  else if iso_caseB chi q amax then Some iso_B
  else if iso_caseC chi q amax then Some iso_C
  else if iso_caseD chi q amax then Some iso_D
  else if iso_caseE chi q amax then Some iso_E
  else if iso_caseF chi amax then Some (Fin 0)
  else None.
End Formulas.

(** the 1e-6 offset of priors.py:186-187 *)
Definition iso_eps : num := Fin (/ 1000000).

(** priors.py:79-196 for one element and scalar q.  [fuel] is the depth of Python's call stack; when
    it is exhausted Python raises RecursionError. *)
Fixpoint chi_effective_prior_from_isotropic_spins (fuel : nat) (Di : num -> num) (chi q amax : num) : result num :=
  match fuel with
  | O => Err RecursionError
  | S n =>
      let chi := nabs chi in
      match iso_select Di chi q amax with
      | Some p => Ok p
      | None =>
          do u <- chi_effective_prior_from_isotropic_spins n Di (chi + iso_eps) q amax ;
          do v <- chi_effective_prior_from_isotropic_spins n Di (chi - iso_eps) q amax ;
          Ok (Fin (1 / 2) * (u + v))
      end
  end.

(** The same call on arrays.  [q] is a scalar or an array.  numpy broadcasting of a chi array of length k with a q
    array of length n (n >= 2): the case arrays can be stacked by np.any (line 183) only when k = n,
    otherwise numpy raises ValueError.  The boundary call (186-187) passes the boundary elements of
    chi_eff but the whole of q. *)
Inductive qarg := QScalar (q : num) | QArray (qs : list num).
Definition opt_default {A} (d : A) (o : option A) : A := match o with Some a => a | None => d end.
Definition is_none {A} (o : option A) : bool := match o with Some _ => false | None => true end.
(** fallback[boundaries] = vals, then np.select default *)
Fixpoint fill (os : list (option num)) (vals : list num) : list num :=
  match os, vals with
  | [], _ => []
  | Some p :: r, _ => p :: fill r vals
  | None :: r, v :: vs => v :: fill r vs
  | None :: r, [] => Fin 0 :: fill r []
  end.
Definition qlist (q : qarg) (k : nat) : result (list num) :=
  match q with
  | QScalar q => Ok (repeat q k)
  | QArray qs => if Nat.eqb (length qs) k then Ok qs
                 else match qs with [q] => Ok (repeat q k) | _ => Err ValueError end
  end.
Fixpoint iso_array (fuel : nat) (Di : num -> num) (chis : list num) (q : qarg) (amax : num) : result (list num) :=
  match fuel with
  | O => Err RecursionError
  | S n =>
      let chis := map nabs chis in
      do qs <- qlist q (length chis) ;
      let sel := map2 (fun c q => iso_select Di c q amax) chis qs in
      if existsb is_none sel then
        let bnd := map fst (filter (fun p => is_none (snd p)) (combine chis sel)) in
        do u <- iso_array n Di (map (fun c => c + iso_eps) bnd) q amax ;
        do v <- iso_array n Di (map (fun c => c - iso_eps) bnd) q amax ;
        Ok (fill sel (map2 (fun a b => Fin (1 / 2) * (a + b)) u v))
      else Ok (fill sel [])
  end.

(** priors.py:199-244, one element *)
Definition chi_p_prior_from_isotropic_spins (chi_p q amax : num) : num :=
  let w := q * amax * (Fin 3 + Fin 4 * q) / (Fin 4 + Fin 3 * q) in
  let caseA := nlt chi_p w in
  let caseB := nge chi_p w && nlt chi_p amax in
  let caseA_pdf :=
    (Fin 1 / (npowi amax 2 * q)) * ((Fin 4 + Fin 3 * q) / (Fin 3 + Fin 4 * q)) *
    (nacos ((Fin 4 + Fin 3 * q) * chi_p / ((Fin 3 + Fin 4 * q) * q * amax))
     * (amax - nsqrt (npowi amax 2 - npowi chi_p 2) + chi_p * nacos (chi_p / amax))
     + nacos (chi_p / amax)
       * (amax * q * (Fin 3 + Fin 4 * q) / (Fin 4 + Fin 3 * q)
          - nsqrt (npowi amax 2 * npowi q 2 * npowi ((Fin 3 + Fin 4 * q) / (Fin 4 + Fin 3 * q)) 2 - npowi chi_p 2)
          + chi_p * nacos ((Fin 4 + Fin 3 * q) * chi_p / ((Fin 3 + Fin 4 * q) * amax * q)))) in
  let caseB_pdf := (Fin 1 / amax) * nacos (chi_p / amax) in
  if caseA then caseA_pdf else if caseB then caseB_pdf else Fin 0.

(** priors.py:247-333.  [rnd] is the stream of values returned by np.random.random, consumed in order;
    [kde draws weights x] is scipy's gaussian_kde density at x (bandwidth fixed). *)
Definition take_rnd (rnd : nat -> num) (pos n : nat) : list num := map rnd (seq pos n).
Record spins := Spins { s_a1 : list num; s_a2 : list num; s_cost2 : list num; s_pos : nat }.
(** lines 291-295 *)
Definition draw_spins (rnd : nat -> num) (amax : num) (ndraws : nat) : spins :=
  {| s_a1 := map (fun u => u * amax) (take_rnd rnd 0 ndraws);
     s_a2 := map (fun u => u * amax) (take_rnd rnd ndraws ndraws);
     s_cost2 := map (fun u => Fin 2 * u - Fin 1) (take_rnd rnd (ndraws + ndraws) ndraws);
     s_pos := ndraws + ndraws + ndraws |}.
(** lines 299, 308 *)
Definition spin_cost1 (chi_eff q : num) (s : spins) : list num :=
  map2 (fun a1 n => n / a1) (s_a1 s) (map2 (fun a2 c2 => chi_eff * (Fin 1 + q) - q * a2 * c2) (s_a2 s) (s_cost2 s)).
Definition unphysical (c : num) : bool := nlt c (Fin (-1)) || ngt c (Fin 1).
(** x[to_replace] = vals *)
Fixpoint put (mask : list bool) (vals : list num) (l : list num) : list num :=
  match mask, l with
  | true :: m, _ :: r => match vals with v :: vs => v :: put m vs r | [] => l end
  | false :: m, x :: r => x :: put m vals r
  | _, _ => l
  end.
(** lines 304-307 *)
Definition redraw (rnd : nat -> num) (amax : num) (mask : list bool) (s : spins) : spins :=
  let k := length (filter (fun b => b) mask) in
  {| s_a1 := put mask (map (fun u => u * amax) (take_rnd rnd (s_pos s) k)) (s_a1 s);
     s_a2 := put mask (map (fun u => u * amax) (take_rnd rnd (s_pos s + k) k)) (s_a2 s);
     s_cost2 := put mask (map (fun u => Fin 2 * u - Fin 1) (take_rnd rnd (s_pos s + k + k) k)) (s_cost2 s);
     s_pos := s_pos s + k + k + k |}.
(** lines 303-308: [loop_exit s s'] = the loop entered with s exits with s' *)
Inductive loop_exit (rnd : nat -> num) (chi_eff q amax : num) : spins -> spins -> Prop :=
| le_done s : existsb unphysical (spin_cost1 chi_eff q s) = false -> loop_exit rnd chi_eff q amax s s
| le_step s s' : existsb unphysical (spin_cost1 chi_eff q s) = true ->
    loop_exit rnd chi_eff q amax (redraw rnd amax (map unphysical (spin_cost1 chi_eff q s)) s) s' ->
    loop_exit rnd chi_eff q amax s s'.
(** lines 317-320 *)
Definition max_chi_p (chi_eff q amax : num) : num :=
  if nlt ((Fin 1 + q) * nabs chi_eff / q) amax then amax
  else nsqrt (npowi amax 2 - npowi ((Fin 1 + q) * nabs chi_eff - q) 2).
(** lines 312-333, after the loop *)
Definition chi_p_interpolant (kde : list num -> list num -> num -> num) (chi_eff q amax : num) (s : spins)
  : list num * list num :=
  let chi_p_draws := map2 (fun ac d => chip q (fst ac) (fst d) (snd ac) (snd d))
                       (combine (s_a1 s) (spin_cost1 chi_eff q s)) (combine (s_a2 s) (s_cost2 s)) in
  let weights := map (fun a1 => (Fin 1 + q) / a1) (s_a1 s) in
  let m := max_chi_p chi_eff q amax in
  let grid0 := nlinspace (Fin (5 / 100) * m) (Fin (95 / 100) * m) 50 in
  let vals0 := map (kde chi_p_draws weights) grid0 in
  let grid := Fin 0 :: grid0 ++ [m] in
  let vals := Fin 0 :: vals0 ++ [Fin 0] in
  let norm := ntrapz vals grid in
  (grid, map (fun v => v / norm) vals).
Definition chi_p_prior_given_chi_eff_q (kde : list num -> list num -> num -> num) (chi_eff q amax : num) (s : spins)
  (chi_p : num) : num :=
  let '(grid, vals) := chi_p_interpolant kde chi_eff q amax s in ninterp chi_p grid vals.
(** priors.py:336-379 for one element, given the conditional density returned for it *)
Definition joint_prior (p_chi_eff p_chi_p_given_chi_eff : num) : num := p_chi_eff * p_chi_p_given_chi_eff.
