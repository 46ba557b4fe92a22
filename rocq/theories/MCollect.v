(** gwinferno/preprocess/data_collection.py: posterior and injection data sets. *)
From Verif Require Export MSelection MCosmology MPriors.
Open Scope R_scope.
Open Scope string_scope.
Open Scope list_scope.

(** ** Reading posteriors (data_collection.py:24-36) *)

(** one event's metadata, and its posterior samples: a structured array (fields by name) *)
Record event_meta : Type := Meta { em_path : string; em_waveform : string; em_z_prior : string; em_catalog : string }.
Record event_post : Type := Post { ep_samples : dict (list num); ep_z_prior : string; ep_catalog : string }.
(** [h5 path keys]: the data set reached by indexing the file *)
Fixpoint unprocessed_catalog_dict_from_metadata (h5 : string -> list string -> result (dict (list num))) (meta : dict event_meta)
  : result (dict event_post) :=
  match meta with
  | [] => Ok []
  | (ev, m) :: r =>
      do post <- (if String.eqb (em_catalog m) "GWTC-1" then h5 (em_path m) (em_waveform m :: nil)
                  else h5 (em_path m) [em_waveform m; "posterior_samples"]);
      do rest <- unprocessed_catalog_dict_from_metadata h5 r;
      Ok ((ev, Post post (em_z_prior m) (em_catalog m)) :: rest)
  end.

(** ** Processing (data_collection.py:39-92) *)
Definition PARAMS : list string := ["mass_1"; "mass_2"; "mass_ratio"; "redshift"; "a_1"; "a_2"; "cos_tilt_1"; "cos_tilt_2"].
(** param_mapping (40-49) *)
Definition source_name (p : string) : string :=
  if String.eqb p "mass_1" then "mass_1_source" else if String.eqb p "mass_2" then "mass_2_source" else p.
Definition MAX_SAMPLES : nat := 10000.

(** one event after the cut: its rows in the order of PARAMS, all of the same length, and its attributes *)
Record event_data : Type := EvData { ed_rows : list (list num); ed_z_prior : string; ed_catalog : string }.
Definition n_samples (d : event_data) : nat := match ed_rows d with r :: _ => length r | [] => O end.

(** lines 56-66, GWTC-1: the redshift comes from the shared cosmology object, which is changed by the call *)
Definition gwtc1_rows (c : cosmo) (post : dict (list num)) : result (list (list num) * cosmo) :=
  do dl <- field post "luminosity_distance_Mpc";
  do (z, c) <- DL2z c dl (Fin DEFAULT_DZ);
  do m1 <- field post "m1_detector_frame_Msun";
  do s1 <- field post "spin1"; do t1 <- field post "costilt1";
  do m2 <- field post "m2_detector_frame_Msun";
  do s2 <- field post "spin2"; do t2 <- field post "costilt2";
  let src m := map2 (fun m z => ndiv m (nadd (Fin 1) z)) m z in
  Ok ([src m1; src m2; map2 ndiv (src m2) (src m1); z; s1; s2; t1; t2], c).
(** lines 69-75 *)
Definition mass_sel (mmax : num) (m1 : list num) : list bool :=
  if existsb (fun m => ngt m mmax) m1 then map (fun m => nlt m mmax) m1 else map (fun _ => true) m1.
Fixpoint fields (post : dict (list num)) (sel : list bool) (ps : list string) : result (list (list num)) :=
  match ps with
  | [] => Ok []
  | p :: r => do c <- field post (source_name p); do c <- pick sel c; do rest <- fields post sel r; Ok (c :: rest)
  end.
Definition other_rows (mmax : num) (post : dict (list num)) : result (list (list num)) :=
  do m1 <- field post "mass_1_source";
  fields post (mass_sel mmax m1) PARAMS.
(** lines 54-84, event by event *)
Fixpoint cut_events (c : cosmo) (mmax : num) (cat : dict event_post) : result (dict event_data * cosmo) :=
  match cat with
  | [] => Ok ([], c)
  | (ev, e) :: r =>
      do (rows, c) <- (if String.eqb (ep_catalog e) "GWTC-1" then gwtc1_rows c (ep_samples e)
                       else do rows <- other_rows mmax (ep_samples e); Ok (rows, c));
      do (rest, c) <- cut_events c mmax r;
      Ok ((ev, EvData rows (ep_z_prior e) (ep_catalog e)) :: rest, c)
  end.
(** min(data.shape[1], max_samples) over the events (51, 84) *)
Definition common_size (evs : dict event_data) : nat := fold_left (fun m ed => Nat.min (n_samples (snd ed)) m) evs MAX_SAMPLES.
(** lines 86-89: [choice ev n k] is np.random.choice(arange(n), k, replace=False) for event [ev] *)
Definition downsample (choice : string -> nat -> nat -> list nat) (k : nat) (ed : string * event_data) : string * event_data :=
  let '(ev, d) := ed in
  let idx := choice ev (n_samples d) k in
  (ev, EvData (map (fun row => map (fun i => nth i row NaN) idx) (ed_rows d)) (ed_z_prior d) (ed_catalog d)).
(** A Dataset with one variable per event (events called "param" or "samples" are not modelled) *)
Definition processed_catalog_dataset_from_dict (choice : string -> nat -> nat -> list nat) (c : cosmo) (mmax : num) (cat : dict event_post)
  : result (dict event_data * cosmo) :=
  do (evs, c) <- cut_events c mmax cat;
  Ok (map (downsample choice (common_size evs)) evs, c).

(** ** The prior of the posterior samples (data_collection.py:95-142) *)

(** dl_2_prior_on_z (95-100); array arguments *)
Definition dl_2_prior_on_z (c : cosmo) (zs : list num) (euclidean : bool) : result (list num * cosmo) :=
  if euclidean then
    do (dl, c) <- z2DL c zs (Fin DEFAULT_DZ);
    Ok (map2 (fun d z => nmul (npowi d 2) (nadd (ndiv d (nadd (Fin 1) z)) (nmul (nadd (Fin 1) z) (dDcdz c z)))) dl zs, c)
  else
    do (v, c) <- dVcdz c zs (Fin DEFAULT_DZ);
    Ok (map2 (fun v z => ndiv v (nadd (Fin 1) z)) v zs, c).
(** the largest value that is not NaN (xarray skips NaN); NaN when there is none *)
Definition nanmax (l : list num) : num :=
  fold_left (fun m x => if nisnan m then x else if nisnan x then m else nmax m x) l NaN.
Definition row_of (p : string) (d : event_data) : result (list num) :=
  do i <- index_of p PARAMS; match nth_error (ed_rows d) i with Some r => Ok r | None => Err KeyError end.
(** lines 104-113: the grid and the two tables *)
Definition z_tables (c : cosmo) (zmax : num) : result (list num * list num * list num * cosmo) :=
  let zs := nlinspace (Fin 0) (nmul zmax (Fin (101 / 100))) 1000 in
  do (pe, c) <- dl_2_prior_on_z c zs true;
  do (pc, c) <- dl_2_prior_on_z c zs false;
  let ne := ntrapz pe zs in let nc := ntrapz pc zs in
  Ok (zs, map (fun p => ndiv p ne) pe, map (fun p => ndiv p nc) pc, c).
Fixpoint all_z (evs : dict event_data) : result (list num) :=
  match evs with [] => Ok [] | (_, d) :: r => do z <- row_of "redshift" d; do rest <- all_z r; Ok (z ++ rest) end.
(** lines 105-107; the maximum of no samples raises ValueError (all events have the same number of samples) *)
Definition catalog_z_max (evs : dict event_data) : result num :=
  do z <- all_z evs;
  match z with [] => Err ValueError | _ :: _ => let m := nanmax z in Ok (if ngt m (Fin (19 / 10)) then m else Fin (19 / 10)) end.
(** lines 120-133 for one event *)
Definition event_prior (names : list string) (tables : option (list num * list num * list num)) (d : event_data) : result (list num) :=
  let prior := repeat (Fin 1) (n_samples d) in
  do prior <- match tables with
    | None => Ok prior
    | Some (zs, pe, pc) =>
        if negb (requested (ed_z_prior d) ["euclidean"; "comoving"]) then Err AssertionError else
        let p_z := if String.eqb (ed_z_prior d) "euclidean" then pe else pc in
        do z <- row_of "redshift" d;
        Ok (map2 (fun p z => nmul p (ninterp z zs p_z)) prior z)
    end;
  do prior <- (if requested "mass_1" names then do z <- row_of "redshift" d; Ok (map2 (fun p z => nmul p (npowi (nadd (Fin 1) z) 2)) prior z) else Ok prior);
  do prior <- (if requested "mass_ratio" names then do m <- row_of "mass_1" d; Ok (map2 nmul prior m) else Ok prior);
  Ok (if requested "a_1" names then map (fun p => nmul p (Fin (1 / 4))) prior else prior).
(** The DataArray: dims (event, param, samples) *)
Record pe_array : Type := PE { pe_events : list string; pe_params : list string; pe_values : list (list (list num)) }.
Fixpoint event_rows (names : list string) (tables : option (list num * list num * list num)) (evs : dict event_data) : result (list (list (list num))) :=
  match evs with
  | [] => Ok []
  | (_, d) :: r => do p <- event_prior names tables d; do rest <- event_rows names tables r; Ok ((ed_rows d ++ p :: nil) :: rest)
  end.
(** lines 103-142; a catalog without events cannot be turned into an array (ValueError) *)
Definition append_prior_to_processed_catalog (c : cosmo) (evs : dict event_data) (names : list string) : result (pe_array * cosmo) :=
  match evs with [] => Err ValueError | _ :: _ =>
    do (tables, c) <- (if requested "redshift" names then
        do zmax <- catalog_z_max evs;
        do (zs, pe, pc, c) <- z_tables c zmax;
        Ok (Some (zs, pe, pc), c)
      else Ok (None, c));
    do rows <- event_rows names tables evs;
    Ok (PE (keys evs) (PARAMS ++ "prior" :: nil) rows, c)
  end.

(** ** Effective spins (data_collection.py:210-353) *)

(** [pchi chi q]: chi_effective_prior_from_isotropic_spins(chi, q, a_max=1)[0];
    [pjoint chi_p chi q]: joint_prior_from_isotropic_spins(chi_p, chi, q, a_max=1), which draws random numbers *)
Record spin_priors : Type := SpinPriors { pchi : num -> num -> result num; pjoint : num -> num -> num -> result num }.
(** the exact prior of the code, for a given dilogarithm and call-stack depth *)
Definition iso_pchi (fuel : nat) (Di : num -> num) (chi q : num) : result num := chi_effective_prior_from_isotropic_spins fuel Di chi q (Fin 1).

(** one row of spins: (q, a_1, a_2, cos_tilt_1, cos_tilt_2, prior) *)
Record spin_row : Type := SpinRow { sr_q : num; sr_a1 : num; sr_a2 : num; sr_c1 : num; sr_c2 : num; sr_prior : num }.
Definition row_chi (s : spin_row) : num := chieff (sr_q s) (sr_a1 s) (sr_a2 s) (sr_c1 s) (sr_c2 s).
Definition row_chip (s : spin_row) : num := chip (sr_q s) (sr_a1 s) (sr_a2 s) (sr_c1 s) (sr_c2 s).
(** lines 241-266 and 272-296: the new prior of one row *)
Definition new_prior (w : spin_priors) (with_chip : bool) (s : spin_row) : result num :=
  let density := ndiv (sr_prior s) (spin_jacobian (sr_a1 s) (sr_a2 s)) in
  do p <- (if with_chip then pjoint w (row_chip s) (row_chi s) (sr_q s) else pchi w (row_chi s) (sr_q s));
  Ok (nmul density p).
Fixpoint traverse {A B} (f : A -> result B) (l : list A) : result (list B) :=
  match l with [] => Ok [] | x :: r => do y <- f x; do ys <- traverse f r; Ok (y :: ys) end.
Definition drop_keys {A} (ks : list string) (d : dict A) : dict A := filter (fun kv => negb (requested (fst kv) ks)) d.
(** drop_sel(param=ks): KeyError for a label that is not there *)
Definition drop_sel {A} (ks : list string) (d : dict A) : result (dict A) :=
  if forallb (fun k => mem k d) ks then Ok (drop_keys ks d) else Err KeyError.

(** rows of the injection columns *)
Definition spin_rows (q a1 a2 c1 c2 p : list num) : list spin_row :=
  map (fun i => SpinRow (nth i q NaN) (nth i a1 NaN) (nth i a2 NaN) (nth i c1 NaN) (nth i c2 NaN) (nth i p NaN)) (seq 0 (length p)).
Definition get_spins (d : dict (list num)) : result (list spin_row) :=
  do q <- assoc "mass_ratio" d; do a1 <- assoc "a_1" d; do a2 <- assoc "a_2" d;
  do c1 <- assoc "cos_tilt_1" d; do c2 <- assoc "cos_tilt_2" d; do p <- assoc "prior" d;
  Ok (spin_rows q a1 a2 c1 c2 p).
(** convert_component_spins_to_chieff(injections=True) *)
Definition convert_injections (w : spin_priors) (d : dict (list num)) (names : list string) : result (dict (list num)) :=
  let with_chip := requested "chi_p" names in
  do rows <- get_spins d;
  do priors <- traverse (new_prior w with_chip) rows;
  do d' <- drop_sel ("prior" :: nil) d;
  Ok (d' ++ [("chi_eff", map row_chi rows); ("prior", priors)] ++
      (if with_chip then ("chi_p", map row_chip rows) :: nil else [])).
(** convert_component_spins_to_chieff(injections=False) for one event, then over the events.  With chi_p the array
    of shape (events, samples) is reshaped to (1, events) and given three dimension names (341-345): ValueError. *)
Definition convert_event (w : spin_priors) (with_chip : bool) (params : list string) (rows : list (list num)) : result (dict (list num)) :=
  let d := combine params rows in
  do s <- get_spins d;
  do priors <- traverse (new_prior w with_chip) s;
  do d' <- drop_sel ("prior" :: nil) d;
  Ok (d' ++ [("chi_eff", map row_chi s); ("prior", priors)]).
Definition convert_posteriors (w : spin_priors) (a : pe_array) (names : list string) : result (pe_array) :=
  let with_chip := requested "chi_p" names in
  do evs <- traverse (convert_event w with_chip (pe_params a)) (pe_values a);
  if with_chip then Err ValueError
  else Ok (PE (pe_events a) (filter (fun k => negb (String.eqb k "prior")) (pe_params a) ++ ["chi_eff"; "prior"]) (map (fun d => map snd d) evs)).

(** ** Loading (data_collection.py:145-200) *)

(** np.setxor1d(have, want): labels in exactly one of the two (sorted in numpy; the order is irrelevant here) *)
Definition setxor1d (have want : list string) : list string :=
  filter (fun k => negb (requested k want)) have ++ filter (fun k => negb (requested k have)) want.
(** list.remove("prior") *)
Fixpoint remove_first (k : string) (l : list string) : result (list string) :=
  match l with [] => Err ValueError | x :: r => if String.eqb k x then Ok r else do r' <- remove_first k r; Ok (x :: r') end.
Definition spin_remove (names : list string) : list string :=
  ["a_1"; "a_2"; "cos_tilt_1"; "cos_tilt_2"] ++ (if requested "mass_2" names then "mass_ratio" :: nil else "mass_2" :: nil).

(** lines 172-200; the injection file is O4a's or O3's *)
Definition load_injection_dataset (w : spin_priors) (injs : result inj_array) (names : list string) : result inj_array :=
  do injs <- injs;
  if requested "chi_eff" names then
    do d <- convert_injections w (ij_params injs) names;
    do d <- drop_sel (spin_remove names) d;
    Ok (Inj d (ij_total injs) (ij_time injs))
  else
    do remove <- remove_first "prior" (setxor1d (keys (ij_params injs)) names);
    do d <- drop_sel remove (ij_params injs);
    Ok (Inj d (ij_total injs) (ij_time injs)).
Inductive inj_file : Type := FileO4a (f : o4a_file) | FileO3 (f : o3_file).
Definition read_injections (file : inj_file) (names : list string) (through_o4a through_o3 : bool) (ifar snr : num) (cuts : option (dict num)) : result inj_array :=
  if through_o4a then match file with FileO4a f => get_o4a_cumulative_injection_dict f names ifar snr | FileO3 _ => Err KeyError end
  else if through_o3 then match file with FileO3 f => get_o3_cumulative_injection_dict f names ifar snr cuts | FileO4a _ => Err KeyError end
  else Err AssertionError.

(** drop_sel on a pe_array *)
Definition keep_params (ks : list string) (a : pe_array) : pe_array :=
  PE (pe_events a) (filter (fun k => negb (requested k ks)) (pe_params a))
     (map (fun rows => map snd (filter (fun kr => negb (requested (fst kr) ks)) (combine (pe_params a) rows))) (pe_values a)).
Definition drop_params (ks : list string) (a : pe_array) : result pe_array :=
  if forallb (fun k => requested k (pe_params a)) ks then Ok (keep_params ks a) else Err KeyError.
(** lines 154-169 *)
Definition select_posteriors (w : spin_priors) (full : pe_array) (names : list string) : result pe_array :=
  if requested "chi_eff" names then
    do a <- convert_posteriors w full names; drop_params (spin_remove names) a
  else
    do remove <- remove_first "prior" (setxor1d (pe_params full) names);
    drop_params remove full.
(** lines 145-169.  [read] is json.load(open(.)); open(None) raises TypeError before the check of line 149. *)
Definition load_posterior_dataset (h5 : string -> list string -> result (dict (list num))) (read : string -> result (dict event_meta))
  (choice : string -> nat -> nat -> list nat) (w : spin_priors) (c : cosmo)
  (maximum_mass : num) (catalog_metadata : option (dict event_meta)) (key_file : option string) (names : list string) : result (pe_array * cosmo) :=
  do meta <- match catalog_metadata with
    | Some m => Ok m
    | None => match key_file with Some k => read k | None => Err TypeError end
    end;
  do posts <- unprocessed_catalog_dict_from_metadata h5 meta;
  do (evs, c) <- processed_catalog_dataset_from_dict choice c maximum_mass posts;
  do (full, c) <- append_prior_to_processed_catalog c evs names;
  do a <- select_posteriors w full names;
  Ok (a, c).
