(** gwinferno/preprocess/selection.py: found injections, their sampling density, and resampling. *)
From Verif Require Export MUtils.
Open Scope R_scope.
Open Scope string_scope.
Open Scope list_scope.

(** ** Arrays of booleans *)

(** a | b and a & b (numpy): arrays of different lengths raise ValueError (broadcasting a one-element array is not modelled) *)
Definition zip_bool (f : bool -> bool -> bool) (a b : list bool) : result (list bool) :=
  if Nat.eqb (length a) (length b) then Ok (map2 f a b) else Err ValueError.
Definition lor (a b : list bool) : result (list bool) := zip_bool orb a b.
Definition land (a b : list bool) : result (list bool) := zip_bool andb a b.
(** x[found] with a boolean array: IndexError when the lengths differ *)
Definition pick {A} (found : list bool) (x : list A) : result (list A) :=
  if Nat.eqb (length found) (length x) then Ok (mask found x) else Err IndexError.
(** sum(found) *)
Definition n_true (found : list bool) : nat := length (filter (fun b => b) found).

(** for key in "analysis_time", "total_analysis_time", "analysis_time_s": the last attribute present
    (selection.py:31-36, 109-114); in years (55, 112) *)
Definition analysis_time (attrs : dict num) : result num :=
  match fold_left (fun acc k => match assoc k attrs with Ok v => Some v | Err _ => acc end)
          ["analysis_time"; "total_analysis_time"; "analysis_time_s"] None with
  | Some t => Ok t
  | None => Err OtherError
  end.
Definition in_years (t : num) : num := ndiv (ndiv (ndiv (ndiv t (Fin (36525 / 100))) (Fin 24)) (Fin 60)) (Fin 60).

(** p in param_names *)
Definition requested (p : string) (names : list string) : bool := existsb (String.eqb p) names.
(** ("a_1" in param_names) | ("chi_eff" in param_names) (62, 118) *)
Definition wants_spins (names : list string) : bool := (requested "a_1" names || requested "chi_eff" names)%bool.

(** (x**2 + y**2 + z**2) ** 0.5, and z divided by it (64-67, 120-125) *)
Definition spin_mag (x y z : num) : num := nsqrt (nadd (nadd (npowi x 2) (npowi y 2)) (npowi z 2)).
Definition spin_mags (x y z : list num) : list num := map2 (fun xy z => spin_mag (fst xy) (snd xy) z) (combine x y) z.
(** (2 * np.pi * a_1**2) * (2 * np.pi * a_2**2) (68, 127) *)
Definition spin_jacobian (a1 a2 : num) : num :=
  nmul (nmul (nmul (Fin 2) (Fin PI)) (npowi a1 2)) (nmul (nmul (Fin 2) (Fin PI)) (npowi a2 2)).

(** The returned DataArray: dims (param, injection), with the attributes.  The injection coordinate is 0, 1, ... *)
Record inj_array : Type := Inj { ij_params : dict (list num); ij_total : num; ij_time : num }.

(** ** O4a (selection.py:12-79) *)

(** The file: attributes and the structured array "events" (fields by name; all fields have one entry per row) *)
Record o4a_file : Type := O4a { o4a_attrs : dict num; o4a_events : dict (list num) }.
(** injections[key]: numpy raises ValueError for an unknown field *)
Definition field (t : dict (list num)) (k : string) : result (list num) :=
  match assoc k t with Ok v => Ok v | Err _ => Err ValueError end.
Definition SNR_FIELD : string := "semianalytic_observed_phase_maximized_snr_net".
Definition LNP_FIELD : string := "lnpdraw_mass1_source_mass2_source_redshift_spin1x_spin1y_spin1z_spin2x_spin2y_spin2z".
(** lines 40-42 *)
Fixpoint far_cuts (ifar : num) (t : dict (list num)) (found : list bool) : result (list bool) :=
  match t with
  | [] => Ok found
  | (k, col) :: r =>
      if contains "far" k then
        if neqb ifar (Fin 0) then Err ZeroDivision
        else do found <- lor found (map (fun x => nle x (ndiv (Fin 1) ifar)) col); far_cuts ifar r found
      else far_cuts ifar r found
  end.
Definition o4a_found (t : dict (list num)) (ifar snr : num) : result (list bool) :=
  do s <- field t SNR_FIELD;
  far_cuts ifar t (map (fun x => nge x snr) s).
(** lines 63-67 for ii = 1, 2 *)
Definition o4a_spin (t : dict (list num)) (found : list bool) (ii : string) : result (list num * list num) :=
  do x <- field t ("spin" ++ ii ++ "x")%string; do x <- pick found x;
  do y <- field t ("spin" ++ ii ++ "y")%string; do y <- pick found y;
  do z <- field t ("spin" ++ ii ++ "z")%string; do z <- pick found z;
  let a := spin_mags x y z in
  Ok (a, map2 ndiv z a).
Definition get_o4a_cumulative_injection_dict (f : o4a_file) (param_names : list string) (ifar snr : num) : result inj_array :=
  do total <- assoc "total_generated" (o4a_attrs f);
  let t := o4a_events f in
  do time <- analysis_time (o4a_attrs f);
  do found <- o4a_found t ifar snr;
  do w <- field t "weights"; do w <- pick found w;
  do m1 <- field t "mass1_source"; do m1 <- pick found m1;
  do m2 <- field t "mass2_source"; do m2 <- pick found m2;
  do z <- field t "redshift"; do z <- pick found z;
  do lp <- field t LNP_FIELD; do lp <- pick found lp;
  let prior := map2 (fun l w => ndiv (nexp l) w) lp w in
  let prior := if requested "mass_ratio" param_names then map2 nmul prior m1 else prior in
  let base := [("mass_1", m1); ("mass_2", m2); ("mass_ratio", map2 ndiv m2 m1); ("redshift", z)] in
  do injs <- (if wants_spins param_names then
      do (a1, c1) <- o4a_spin t found "1";
      do (a2, c2) <- o4a_spin t found "2";
      Ok (base ++ [("prior", map2 nmul prior (map2 spin_jacobian a1 a2)); ("a_1", a1); ("cos_tilt_1", c1); ("a_2", a2); ("cos_tilt_2", c2)])
    else Ok (base ++ ("prior", prior) :: nil));
  Ok (Inj injs total (in_years time)).

(** ** O3 (selection.py:82-140) *)

(** str.lower on ASCII *)
Definition lower_ascii (a : ascii) : ascii :=
  let n := nat_of_ascii a in if (Nat.leb 65 n && Nat.leb n 90)%bool then ascii_of_nat (n + 32) else a.
Fixpoint lower (s : string) : string := match s with EmptyString => "" | String a r => String (lower_ascii a) (lower r) end.

(** The file: the numeric data sets of the group "injections", its "name" data set if there is one, the
    attributes of the group and those of the file *)
Record o3_file : Type := O3 { o3_cols : dict (list num); o3_names : option (list string); o3_group_attrs : dict num; o3_attrs : dict num }.
(** lines 93-95: O1/O2 injections are found by their SNR *)
Definition gwtc1_cut (f : o3_file) (snr : num) (found : list bool) : result (list bool) :=
  match o3_names f with
  | None => Ok found
  | Some names =>
      do s <- assoc "optimal_snr_net" (o3_cols f);
      do b <- land (map (fun n => (String.eqb n "o1" || String.eqb n "o2")%bool) names) (map (fun x => ngt x snr) s);
      lor found b
  end.
(** lines 90-95; [ks]: the keys of the group.  The loop variable can be "name", which is not numeric. *)
Fixpoint o3_cuts (f : o3_file) (ifar snr : num) (ks : list string) (found : list bool) : result (list bool) :=
  match ks with
  | [] => Ok found
  | k :: r =>
      do found <- (if contains "ifar" (lower k) then do c <- assoc k (o3_cols f); lor found (map (fun x => ngt x ifar) c) else Ok found);
      do found <- gwtc1_cut f snr found;
      o3_cuts f ifar snr r found
  end.
Definition group_keys (f : o3_file) : list string :=
  keys (o3_cols f) ++ match o3_names f with Some _ => "name" :: nil | None => [] end.
(** lines 96-98 *)
Fixpoint extra_cuts (f : o3_file) (cuts : dict num) (found : list bool) : result (list bool) :=
  match cuts with
  | [] => Ok found
  | (k, v) :: r => do c <- assoc k (o3_cols f); do found <- lor found (map (fun x => nge x v) c); extra_cuts f r found
  end.
Definition o3_found (f : o3_file) (ifar snr : num) (additional_cuts : option (dict num)) : result (list bool) :=
  do m <- assoc "mass1_source" (o3_cols f);
  do found <- o3_cuts f ifar snr (group_keys f) (map (fun _ => false) m);
  match additional_cuts with None => Ok found | Some cuts => extra_cuts f cuts found end.
(** data.get(key, np.zeros(n_found))[()][found] *)
Definition get_or_zeros (f : o3_file) (found : list bool) (k : string) : result (list num) :=
  pick found (match assoc k (o3_cols f) with Ok c => c | Err _ => repeat (Fin 0) (n_true found) end).
Definition col_found (f : o3_file) (found : list bool) (k : string) : result (list num) :=
  do c <- assoc k (o3_cols f); pick found c.
(** lines 119-125 *)
Definition o3_spin (f : o3_file) (found : list bool) (ii : string) : result (list num * list num) :=
  do x <- get_or_zeros f found ("spin" ++ ii ++ "x")%string;
  do y <- get_or_zeros f found ("spin" ++ ii ++ "y")%string;
  do z <- col_found f found ("spin" ++ ii ++ "z")%string;
  let a := spin_mags x y z in
  Ok (a, map2 ndiv z a).
Definition get_o3_cumulative_injection_dict (f : o3_file) (param_names : list string) (ifar snr : num) (additional_cuts : option (dict num)) : result inj_array :=
  do found <- o3_found f ifar snr additional_cuts;
  do m1 <- col_found f found "mass1_source";
  do m2 <- col_found f found "mass2_source";
  do z <- col_found f found "redshift";
  do total <- assoc "total_generated" (o3_group_attrs f);
  do time <- analysis_time (o3_attrs f);
  do prior <- col_found f found "sampling_pdf";
  let base := [("mass_1", m1); ("mass_2", m2); ("mass_ratio", map2 ndiv m2 m1); ("redshift", z)] in
  do (prior, spins) <- (if wants_spins param_names then
      do (a1, c1) <- o3_spin f found "1";
      do (a2, c2) <- o3_spin f found "2";
      Ok (map2 nmul prior (map2 spin_jacobian a1 a2), [("a_1", a1); ("cos_tilt_1", c1); ("a_2", a2); ("cos_tilt_2", c2)])
    else Ok (prior, []));
  let prior := if requested "mass_ratio" param_names then map2 nmul prior m1 else prior in
  Ok (Inj (base ++ ("prior", prior) :: spins) total (in_years time)).

(** ** resample_injections (selection.py:143-156) *)

(** The injections are the columns of [injdata]: one list of parameter values per injection.  [model_prob] is
    evaluated injection by injection; [prior_row] is param_map["prior"]; [choice p N] is random.choice. *)
Definition put_at {A} (i : nat) (v : A) (l : list A) : list A := firstn i l ++ (if Nat.ltb i (length l) then v :: nil else []) ++ skipn (S i) l.
(** int(x // y) for finite numbers, y <> 0: the floor of the quotient.  x // 0 is NaN, and int(NaN) raises ValueError;
    int(inf) raises OverflowError (OtherError). *)
Definition floor_div (x y : num) : result Z :=
  match ndiv x y with
  | Fin r => match y with Fin _ => Ok (Int_part r) | _ => Err ValueError end
  | NaN => Err ValueError
  | _ => match y with Fin _ => Err ValueError | _ => Err OtherError end
  end.
Definition resample_injections (model_prob : list num -> num) (injdata : list (list num)) (Ndraw : num) (prior_row : nat)
  (choice : list num -> nat -> list nat) : result (list (list num) * nat * num) :=
  let wts := map (fun c => ndiv (model_prob c) (nth prior_row c NaN)) injdata in
  let p := map (fun w => ndiv w (nsum wts)) wts in
  do N <- floor_div (npowi (nsum wts) 2) (nsum (map (fun w => nmul w w) wts));
  if (N <? 0)%Z then Err ValueError else
  let norm := ndiv (nsum wts) Ndraw in
  let idxs := choice p (Z.to_nat N) in
  let new := map (fun i => nth i injdata []) idxs in
  let new := map (fun c => put_at prior_row (ndiv (model_prob c) norm) c) new in
  let s2_new := nsub (ndiv (nsum (map (fun w => nmul w w) wts)) (nmul Ndraw Ndraw)) (ndiv (nmul norm norm) Ndraw) in
  let Neff_new := ndiv (nmul norm norm) s2_new in
  Ok (new, Z.to_nat N, Neff_new).
