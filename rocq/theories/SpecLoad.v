(** Vocabulary for the statements about the loaders of preprocess/data_collection.py. *)
From Verif Require Export SpecCollect.
Open Scope R_scope.
Open Scope string_scope.
Open Scope list_scope.

(** the parameters that an injection request can name: spins only if the magnitude of the first is among them *)
Definition available (names : list string) : list string :=
  ["mass_1"; "mass_2"; "mass_ratio"; "redshift"] ++ (if asked "a_1" names then ["a_1"; "a_2"; "cos_tilt_1"; "cos_tilt_2"] else []).
(** the value of parameter k for row j of an injection file *)
Definition injection_value (t : dict (list num)) (k : string) (j : nat) : num :=
  if String.eqb k "mass_1" then cell t "mass1_source" j
  else if String.eqb k "mass_2" then cell t "mass2_source" j
  else if String.eqb k "mass_ratio" then ndiv (cell t "mass2_source" j) (cell t "mass1_source" j)
  else if String.eqb k "redshift" then cell t "redshift" j
  else if String.eqb k "a_1" then mag t "1" j
  else if String.eqb k "a_2" then mag t "2" j
  else if String.eqb k "cos_tilt_1" then ndiv (cell t "spin1z" j) (mag t "1" j)
  else ndiv (cell t "spin2z" j) (mag t "2" j).
(** the spins of row j of an injection file, with its prior *)
Definition injection_spins (t : dict (list num)) (prior : nat -> num) (j : nat) : spin_row :=
  SpinRow (injection_value t "mass_ratio" j) (injection_value t "a_1" j) (injection_value t "a_2" j)
          (injection_value t "cos_tilt_1" j) (injection_value t "cos_tilt_2" j) (prior j).
(** a plain data set: exactly the requested parameters and the prior, for the rows sel *)
Definition plain_columns (t : dict (list num)) (names : list string) (prior : nat -> num) (sel : list nat) (d : dict (list num)) : Prop :=
  NoDup (keys d) /\ (forall k, In k (keys d) <-> In k names \/ k = "prior") /\
  (forall k, In k names -> assoc k d = Ok (map (injection_value t k) sel)) /\
  assoc "prior" d = Ok (map prior sel).
(** a data set of effective spins: masses, redshift, effective spins and the converted prior, for the rows sel *)
Definition effective_columns (w : spin_priors) (t : dict (list num)) (names : list string) (prior : nat -> num) (sel : list nat) (d : dict (list num)) : Prop :=
  keys d = ["mass_1"; second_mass names; "redshift"; "chi_eff"; "prior"] ++ (if asked "chi_p" names then "chi_p" :: nil else []) /\
  (forall k, In k ["mass_1"; second_mass names; "redshift"] -> assoc k d = Ok (map (injection_value t k) sel)) /\
  assoc "chi_eff" d = Ok (map (fun j => spin_chi_eff (injection_spins t prior j)) sel) /\
  (In "chi_p" names -> assoc "chi_p" d = Ok (map (fun j => spin_chi_p (injection_spins t prior j)) sel)) /\
  exists priors, assoc "prior" d = Ok priors /\
    Forall2 (fun j p => converted_prior w (asked "chi_p" names) (injection_spins t prior j) p) sel priors.
(** area of the sphere of radius a, and the density in Cartesian components of two isotropic spins of uniform magnitude *)
Definition sphere (a : R) : R := 4 * PI * a ^ 2.
Definition isotropic_density (a1 a2 : R) : R := 1 / sphere a1 * (1 / sphere a2).
(** the density of the file for row j *)
Definition o4a_density (f : o4a_file) (j : nat) : num := ndiv (nexp (cell (o4a_events f) log_density_column j)) (cell (o4a_events f) "weights" j).
Definition o3_density (f : o3_file) : nat -> num := cell (o3_cols f) "sampling_pdf".
(** a readable file, its table, its density, its total and its found rows *)
Inductive reads (names : list string) (ifar snr : num) : inj_file -> bool -> option (dict num) -> nat -> dict (list num) -> (nat -> num) -> num -> (nat -> Prop) -> Prop :=
| reads_o4a n f total cuts : good_o4a n f -> neqb ifar (Fin 0) = false -> assoc "total_generated" (o4a_attrs f) = Ok total -> has_time (o4a_attrs f) ->
    reads names ifar snr (FileO4a f) true cuts n (o4a_events f) (o4a_density f) total (found_o4a (o4a_events f) ifar snr)
| reads_o3 n f total cuts : good_o3 n f -> good_cuts f cuts -> (asks_spins names = true -> incl spin_fields (keys (o3_cols f))) ->
    assoc "total_generated" (o3_group_attrs f) = Ok total -> has_time (o3_attrs f) ->
    reads names ifar snr (FileO3 f) false cuts n (o3_cols f) (o3_density f) total (fun j => found_o3 f ifar snr j \/ passes_cut f cuts j).
