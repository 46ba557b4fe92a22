(** Vocabulary for the statements about preprocess/data_collection.py. *)
From Verif Require Export MCollect SpecSelection.
Open Scope R_scope.
Open Scope string_scope.
Open Scope list_scope.

(** ** Processing the catalog *)

(** np.random.choice(arange(n), k, replace=False): k different positions *)
Definition is_sampling (choice : string -> nat -> nat -> list nat) : Prop :=
  forall ev n k, (k <= n)%nat -> length (choice ev n k) = k /\ NoDup (choice ev n k) /\ forall i, In i (choice ev n k) -> (i < n)%nat.

(** the parameters of a processed event, in the order of its rows, and the largest number of samples kept of one *)
Definition parameter_order : list string := ["mass_1"; "mass_2"; "mass_ratio"; "redshift"; "a_1"; "a_2"; "cos_tilt_1"; "cos_tilt_2"].
Definition sample_limit : nat := 10000.
(** the effective spins of one sample *)
Definition spin_chi_eff (s : spin_row) : num := chieff (sr_q s) (sr_a1 s) (sr_a2 s) (sr_c1 s) (sr_c2 s).
Definition spin_chi_p (s : spin_row) : num := chip (sr_q s) (sr_a1 s) (sr_a2 s) (sr_c1 s) (sr_c2 s).
(** the column of a posterior file (other than GWTC-1's) that holds a parameter: source-frame masses *)
Definition column_of (p : string) : string :=
  if String.eqb p "mass_1" then "mass_1_source" else if String.eqb p "mass_2" then "mass_2_source" else p.
(** the columns of a posterior file, by catalog *)
Definition gwtc1_fields : list string :=
  ["luminosity_distance_Mpc"; "m1_detector_frame_Msun"; "m2_detector_frame_Msun"; "spin1"; "spin2"; "costilt1"; "costilt2"].
Definition is_gwtc1 (e : event_post) : Prop := ep_catalog e = "GWTC-1".
Definition good_event (n : nat) (e : event_post) : Prop :=
  is_table n (ep_samples e) /\
  (is_gwtc1 e -> incl gwtc1_fields (keys (ep_samples e))) /\
  (~ is_gwtc1 e -> incl (map column_of parameter_order) (keys (ep_samples e))).
Definition good_catalog (cat : dict event_post) : Prop := Forall (fun ke => exists n, good_event n (snd ke)) cat.

(** which samples of an event survive the cut: all of a GWTC-1 event; otherwise those below mmax as soon as one exceeds it *)
Definition survives (mmax : num) (e : event_post) (n j : nat) : Prop :=
  is_gwtc1 e \/
  nlt (cell (ep_samples e) "mass_1_source" j) mmax = true \/
  forall i, (i < n)%nat -> nlt mmax (cell (ep_samples e) "mass_1_source" i) = false.
(** the value of parameter p for sample j of an event, given the redshifts of a GWTC-1 event *)
Definition sample_value (e : event_post) (z : nat -> num) (p : string) (j : nat) : num :=
  let x k := cell (ep_samples e) k j in
  if String.eqb (ep_catalog e) "GWTC-1" then
    let m1 := ndiv (x "m1_detector_frame_Msun") (nadd (Fin 1) (z j)) in
    let m2 := ndiv (x "m2_detector_frame_Msun") (nadd (Fin 1) (z j)) in
    if String.eqb p "mass_1" then m1 else if String.eqb p "mass_2" then m2 else if String.eqb p "mass_ratio" then ndiv m2 m1
    else if String.eqb p "redshift" then z j else if String.eqb p "a_1" then x "spin1" else if String.eqb p "a_2" then x "spin2"
    else if String.eqb p "cos_tilt_1" then x "costilt1" else x "costilt2"
  else x (column_of p).
(** the redshifts that the cosmology c assigns to the luminosity distances of a GWTC-1 event *)
Definition redshifts_of (c : cosmo) (e : event_post) (n : nat) (z : nat -> num) : Prop :=
  is_gwtc1 e -> exists dl, assoc "luminosity_distance_Mpc" (ep_samples e) = Ok dl /\ DL2z c dl (Fin DEFAULT_DZ) = Ok (map z (seq 0 n), c).
Definition smallest (l : list nat) (k : nat) : Prop := In k l /\ forall x, In x l -> (k <= x)%nat.

(** an event kd of the processed catalog against the event ke of the input: k intact columns js of those that survive the cut, none twice *)
Definition processed_rel (c : cosmo) (mmax : num) (k : nat) (ke : string * event_post) (kd : string * event_data) : Prop :=
  fst kd = fst ke /\ ed_z_prior (snd kd) = ep_z_prior (snd ke) /\ ed_catalog (snd kd) = ep_catalog (snd ke) /\
  exists n z all js, good_event n (snd ke) /\ redshifts_of c (snd ke) n z /\ selects n (survives mmax (snd ke) n) all /\
    (k <= length all)%nat /\ length js = k /\ NoDup js /\ incl js all /\
    ed_rows (snd kd) = map (fun p => map (sample_value (snd ke) z p) js) parameter_order.
(** a rule for the cut that looks at nothing but the mass and the bound *)
Definition one_rule (keep : num -> num -> bool) : Prop := forall choice c mmax ev e n evs c', is_sampling choice -> good_event n e -> ~ is_gwtc1 e ->
    processed_catalog_dataset_from_dict choice c mmax ((ev, e) :: nil) = Ok (evs, c') ->
    map (fun kd => n_samples (snd kd)) evs = Nat.min sample_limit (length (filter (fun j => keep (cell (ep_samples e) "mass_1_source" j) mmax) (seq 0 n))) :: nil.

(** ** The prior of the posterior samples *)

(** the i-th event of the data set, as a dictionary of its parameters *)
Definition pe_event (a : pe_array) (i : nat) : dict (list num) := combine (pe_params a) (nth i (pe_values a) []).
(** a processed event with real-valued samples: its k samples, each a function of the parameter name *)
Definition real_event (k : nat) (d : event_data) (x : string -> nat -> R) : Prop :=
  ed_rows d = map (fun p => map (fun j => Fin (x p j)) (seq 0 k)) parameter_order.
(** p is the piecewise linear function through the points (xs, ys), constant outside *)
Definition linear_through (xs ys : list R) (p : R -> R) : Prop :=
  length ys = length xs /\
  (forall x, x <= nth 0 xs 0 -> p x = nth 0 ys 0) /\
  (forall x, nth (length xs - 1) xs 0 <= x -> p x = nth (length xs - 1) ys 0) /\
  forall i x, (S i < length xs)%nat -> nth i xs 0 <= x <= nth (S i) xs 0 ->
    p x = nth i ys 0 + (x - nth i xs 0) / (nth (S i) xs 0 - nth i xs 0) * (nth (S i) ys 0 - nth i ys 0).
(** a density on a grid: nonnegative, trapezoid integral one *)
Definition grid_density (zs ys : list R) : Prop := length ys = length zs /\ (forall y, In y ys -> 0 <= y) /\ trapezoid zs ys = 1.
Definition factor (b : bool) (x : R) : R := if b then x else 1.
Definition sample_prior (names : list string) (pz : R -> R) (z m1 : R) : R :=
  factor (asked "redshift" names) (pz z) * factor (asked "mass_1" names) ((1 + z) ^ 2) *
  factor (asked "mass_ratio" names) m1 * factor (asked "a_1" names) (1 / 4).

(** ** Effective spins *)

(** the effective spin of a binary *)
Definition chi_effective (q a1 a2 c1 c2 : R) : R := (a1 * c1 + q * a2 * c2) / (1 + q).

(** ** The tabulated redshift priors *)
(** y is a multiple of g *)
Definition proportional (ys gs : list R) : Prop := exists k, 0 < k /\ ys = map (fun g => g / k) gs.
(** p(z) for a prior uniform in luminosity distance cubed (distance dl at z, c/H = f): dl^2 d(dl)/dz *)
Definition euclidean_shape (z dl f : R) : R := dl ^ 2 * (dl / (1 + z) + (1 + z) * f).
(** p(z) for a prior uniform in comoving volume and source-frame time (comoving distance d): dV/dz / (1+z) *)
Definition comoving_shape (z d f : R) : R := 4 * PI * d ^ 2 * f / (1 + z).

(** ** Loading *)
(** the spins, mass ratio and prior of row j of a table *)
Definition spins_at (t : dict (list num)) (j : nat) : spin_row :=
  SpinRow (cell t "mass_ratio" j) (cell t "a_1" j) (cell t "a_2" j) (cell t "cos_tilt_1" j) (cell t "cos_tilt_2" j) (cell t "prior" j).
(** the prior that replaces that of row j: (prior / Jacobian) times p(chi_eff | q), or p(chi_eff, chi_p | q) *)
Definition converted_prior (w : spin_priors) (with_chip : bool) (s : spin_row) (p' : num) : Prop :=
  exists p, (if with_chip then pjoint w (spin_chi_p s) (spin_chi_eff s) (sr_q s) else pchi w (spin_chi_eff s) (sr_q s)) = Ok p /\
    p' = nmul (ndiv (sr_prior s) (polar_jacobian (sr_a1 s) (sr_a2 s))) p.
(** the mass parameter kept beside mass_1 when effective spins are requested *)
Definition second_mass (names : list string) : string := if asked "mass_2" names then "mass_2" else "mass_ratio".
