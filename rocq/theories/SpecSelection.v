(** Vocabulary for the statements about preprocess/selection.py. *)
From Coq Require Export Sorted.
From Verif Require Export MSelection SpecUtils.
Open Scope R_scope.
Open Scope string_scope.
Open Scope list_scope.

(** parameter p is among those asked for; the spins are read when the first magnitude or the effective spin is *)
Definition asked (p : string) (names : list string) : bool := existsb (String.eqb p) names.
Definition asks_spins (names : list string) : bool := (asked "a_1" names || asked "chi_eff" names)%bool.
(** the value of column [k] in row [j] of a table *)
Definition cell (t : dict (list num)) (k : string) (j : nat) : num := match assoc k t with Ok c => nth j c NaN | Err _ => NaN end.
(** a table of n rows: distinct column names, every column with n entries *)
Definition is_table (n : nat) (t : dict (list num)) : Prop := NoDup (keys t) /\ Forall (fun kc => length (snd kc) = n) t.

(** [sel] lists, in increasing order and without repetition, exactly the rows j < n that satisfy P *)
Definition selects (n : nat) (P : nat -> Prop) (sel : list nat) : Prop :=
  StronglySorted lt sel /\ forall j, In j sel <-> (j < n)%nat /\ P j.

(** columns of the O4a file: the observed SNR, and the log of the density the injection was drawn from *)
Definition snr_column : string := "semianalytic_observed_phase_maximized_snr_net".
Definition log_density_column : string := "lnpdraw_mass1_source_mass2_source_redshift_spin1x_spin1y_spin1z_spin2x_spin2y_spin2z".
(** found in O4a data: SNR at or above the threshold, or some false-alarm rate at or below 1/ifar *)
Definition found_o4a (t : dict (list num)) (ifar snr : num) (j : nat) : Prop :=
  nle snr (cell t snr_column j) = true \/
  exists k, In k (keys t) /\ contains "far" k = true /\ nle (cell t k j) (ndiv (Fin 1) ifar) = true.
(** found in O3 data: some inverse false-alarm rate above the threshold, or an O1/O2 injection with SNR above the threshold *)
Definition found_o3 (f : o3_file) (ifar snr : num) (j : nat) : Prop :=
  (exists k, In k (keys (o3_cols f)) /\ contains "ifar" (lower k) = true /\ nlt ifar (cell (o3_cols f) k j) = true) \/
  (exists names, o3_names f = Some names /\ In (nth j names "") ["o1"; "o2"] /\ nlt snr (cell (o3_cols f) "optimal_snr_net" j) = true).
(** satisfies one of the additional cuts *)
Definition passes_cut (f : o3_file) (cuts : option (dict num)) (j : nat) : Prop :=
  match cuts with None => False | Some cs => exists k v, In (k, v) cs /\ nle v (cell (o3_cols f) k j) = true end.

(** the columns the readers need *)
Definition spin_fields : list string := ["spin1x"; "spin1y"; "spin1z"; "spin2x"; "spin2y"; "spin2z"].
Definition good_o4a (n : nat) (f : o4a_file) : Prop :=
  is_table n (o4a_events f) /\
  incl (snr_column :: "weights" :: "mass1_source" :: "mass2_source" :: "redshift" :: log_density_column :: spin_fields) (keys (o4a_events f)).
Definition good_o3 (n : nat) (f : o3_file) : Prop :=
  is_table n (o3_cols f) /\
  incl ["mass1_source"; "mass2_source"; "redshift"; "sampling_pdf"; "spin1z"; "spin2z"] (keys (o3_cols f)) /\
  match o3_names f with None => True | Some names => length names = n /\ In "optimal_snr_net" (keys (o3_cols f)) end.
Definition good_cuts (f : o3_file) (cuts : option (dict num)) : Prop :=
  match cuts with None => True | Some cs => incl (keys cs) (keys (o3_cols f)) end.

(** magnitude of a spin vector *)
Definition magnitude (x y z : num) : num := nsqrt (nadd (nadd (nmul x x) (nmul y y)) (nmul z z)).
(** density of the magnitude and cosine of the tilt of both spins, per density of the six Cartesian components *)
Definition polar_jacobian (a1 a2 : num) : num :=
  nmul (nmul (nmul (Fin 2) (Fin PI)) (nmul a1 a1)) (nmul (nmul (Fin 2) (Fin PI)) (nmul a2 a2)).
Definition times (b : bool) (x y : num) : num := if b then nmul x y else x.
(** the file says how long it covers *)
Definition has_time (attrs : dict num) : Prop := exists k, In k ["analysis_time"; "total_analysis_time"; "analysis_time_s"] /\ In k (keys attrs).
(** magnitude of the spin of component ii in row j *)
Definition mag (t : dict (list num)) (ii : string) (j : nat) : num :=
  magnitude (cell t ("spin" ++ ii ++ "x")%string j) (cell t ("spin" ++ ii ++ "y")%string j) (cell t ("spin" ++ ii ++ "z")%string j).
(** the columns of the data set, for the rows [sel] of the table [t], with sampling density [prior] *)
Definition injection_columns (t : dict (list num)) (names : list string) (prior : nat -> num) (sel : list nat) (d : dict (list num)) : Prop :=
  assoc "mass_1" d = Ok (map (cell t "mass1_source") sel) /\
  assoc "mass_2" d = Ok (map (cell t "mass2_source") sel) /\
  assoc "mass_ratio" d = Ok (map (fun j => ndiv (cell t "mass2_source" j) (cell t "mass1_source" j)) sel) /\
  assoc "redshift" d = Ok (map (cell t "redshift") sel) /\
  assoc "prior" d = Ok (map prior sel) /\
  if asks_spins names then
    keys d = ["mass_1"; "mass_2"; "mass_ratio"; "redshift"; "prior"; "a_1"; "cos_tilt_1"; "a_2"; "cos_tilt_2"] /\
    forall ii, In ii ["1"; "2"] ->
      assoc ("a_" ++ ii)%string d = Ok (map (mag t ii) sel) /\
      assoc ("cos_tilt_" ++ ii)%string d = Ok (map (fun j => ndiv (cell t ("spin" ++ ii ++ "z")%string j) (mag t ii j)) sel)
  else keys d = ["mass_1"; "mass_2"; "mass_ratio"; "redshift"; "prior"].
(** the file's density, times the Jacobians of the requested parameters *)
Definition requested_prior (t : dict (list num)) (names : list string) (p : nat -> num) (j : nat) : num :=
  times (asked "mass_ratio" names)
    (times (asks_spins names) (p j) (polar_jacobian (mag t "1" j) (mag t "2" j))) (cell t "mass1_source" j).
(** [ws] are the weights target/prior of the injections (columns of parameter values, the prior in position i) *)
Definition weights_are (model_prob : list num -> num) (i : nat) (injdata : list (list num)) (ws : list R) : Prop :=
  Forall2 (fun c w => exists m p, model_prob c = Fin m /\ nth i c NaN = Fin p /\ 0 <= m /\ 0 < p /\ w = m / p) injdata ws.
(** the target density does not look at the sampling prior *)
Definition ignores_position (model_prob : list num -> num) (i : nat) : Prop :=
  forall c c', length c = length c' -> (forall j, j <> i -> nth j c NaN = nth j c' NaN) -> model_prob c = model_prob c'.
(** random.choice(key, n, shape=[k], p=p): k indices, none with probability zero *)
Definition is_choice (choice : list num -> nat -> list nat) : Prop :=
  forall p k, length (choice p k) = k /\ forall j, In j (choice p k) -> (j < length p)%nat /\ nlt (Fin 0) (nth j p NaN) = true.
