(** Vocabulary for the statements about saving, loading and the chain from catalog to likelihood data. *)
From Verif Require Export MStore SpecLoad SpecUtils SpecCosmology SpecCosmologyQ.
Open Scope R_scope.
Open Scope string_scope.
Open Scope list_scope.

(** a name in which ".h5" occurs *)
Definition h5_name (filename : string) : Prop := exists a b, filename = (a ++ ".h5" ++ b)%string.
(** a complete data set: one block per event, distinct labels *)
Definition complete (a : pe_array) (i : inj_array) : Prop :=
  length (pe_values a) = length (pe_events a) /\ NoDup (pe_params a) /\ NoDup (keys (ij_params i)).
(** what a user gets back: under each parameter, the rows of the events that are not ignored *)
Definition returned (a : pe_array) (i : inj_array) (ignore : option (list string))
  (r : dict (list (list num)) * dict (list num) * constants * list string) : Prop :=
  let '(pe, inj, k, ps) := r in
  keys pe = pe_params a /\ ps = pe_params a /\ inj = ij_params i /\
  k_total k = ij_total i /\ k_time k = ij_time i /\
  (forall n p, nth_error (pe_params a) n = Some p ->
     assoc p pe = Ok (map (fun er => nth n (snd er) []) (filter (fun er => negb (ignoredb ignore (fst er))) (combine (pe_events a) (pe_values a))))).

(** the posterior of event p is the data set the metadata m points to *)
Definition stored (h5 : string -> list string -> result (dict (list num))) (m : string * event_meta) (p : string * event_post) : Prop :=
  fst p = fst m /\ ep_z_prior (snd p) = em_z_prior (snd m) /\ ep_catalog (snd p) = em_catalog (snd m) /\
  (em_catalog (snd m) = "GWTC-1" -> h5 (em_path (snd m)) (em_waveform (snd m) :: nil) = Ok (ep_samples (snd p))) /\
  (em_catalog (snd m) <> "GWTC-1" -> h5 (em_path (snd m)) [em_waveform (snd m); "posterior_samples"] = Ok (ep_samples (snd p))).
(** an event of real-valued samples, at least one of which survives the cut; the distances of a GWTC-1 event lie within the
    table of the cosmology c, and its primary masses are positive *)
Definition usable (c : cosmo) (mmax : num) (e : event_post) : Prop :=
  In (ep_z_prior e) ["euclidean"; "comoving"] /\
  exists n, good_event n e /\ (exists j, (j < n)%nat /\ survives mmax e n j) /\
    (is_gwtc1 e -> (forall k j, In k gwtc1_fields -> (j < n)%nat -> exists x, cell (ep_samples e) k j = Fin x) /\
       exists w b, table_end c w b /\ forall j, (j < n)%nat -> exists d m, cell (ep_samples e) "luminosity_distance_Mpc" j = Fin d /\ 0 <= d <= b /\
         cell (ep_samples e) "m1_detector_frame_Msun" j = Fin m /\ 0 < m) /\
    (~ is_gwtc1 e -> forall p j, In p parameter_order -> (j < n)%nat -> exists x, cell (ep_samples e) (column_of p) j = Fin x).
(** the tabulated redshift priors of a flat cosmology, as functions *)
Definition euclidean_prior (ho om orad : R) (c : cosmo) (zs : list R) (pz : R -> R) : Prop :=
  exists ys dl c1, grid_density zs ys /\ linear_through zs ys pz /\ z2DL c (map Fin zs) (Fin DEFAULT_DZ) = Ok (map Fin dl, c1) /\
    proportional ys (map2 (fun z dl => euclidean_shape z dl (comoving_rate ho om orad z)) zs dl).
Definition comoving_prior (ho om orad : R) (zs : list R) (pz : R -> R) : Prop :=
  exists ys d c1 c2, grid_density zs ys /\ linear_through zs ys pz /\ z2Dc c1 (map Fin zs) (Fin DEFAULT_DZ) = Ok (map Fin d, c2) /\
    proportional ys (map2 (fun z d => comoving_shape z d (comoving_rate ho om orad z)) zs d).
(** row i of the arrays in pe: the samples js of the event, with their sampling prior; the redshifts of a GWTC-1 event are those
    of the cosmology c *)
Definition event_data_is (c : cosmo) (names : list string) (mmax : num) (pzs : string -> R -> R) (size : nat) (pe : dict (list (list num))) (i : nat) (e : event_post) : Prop :=
  exists n zj js, good_event n e /\ redshifts_of c e n zj /\ length js = size /\ NoDup js /\ (forall j, In j js -> (j < n)%nat /\ survives mmax e n j) /\
    (forall p, In p names -> exists rows, assoc p pe = Ok rows /\ nth_error rows i = Some (map (sample_value e zj p) js)) /\
    exists rows vs, assoc "prior" pe = Ok rows /\ nth_error rows i = Some (map Fin vs) /\
      Forall2 (fun j v => exists z m1, sample_value e zj "redshift" j = Fin z /\ sample_value e zj "mass_1" j = Fin m1 /\
                 v = sample_prior names (pzs (ep_z_prior e)) z m1) js vs.
