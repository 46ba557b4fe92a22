(** Vocabulary for the statements about pipeline/utils.py. *)
From Verif Require Export MUtils Spec.
Open Scope R_scope.
Open Scope string_scope.
Open Scope list_scope.

(** a consistent file: one row per event, one column per parameter, distinct labels *)
Definition good_file (f : idata) : Prop :=
  length (i_post f) = length (i_events f) /\ NoDup (i_pe_params f) /\ NoDup (i_inj_params f).
(** the events that are not ignored, in order, with their samples *)
Definition ignored (ignore : option (list string)) (e : string) : Prop := match ignore with Some names => In e names | None => False end.
Definition ignoredb (ignore : option (list string)) (e : string) : bool := match ignore with Some names => existsb (String.eqb e) names | None => false end.
Definition remaining (f : idata) (ignore : option (list string)) : list (string * list (list num)) :=
  filter (fun er => negb (ignoredb ignore (fst er))) (combine (i_events f) (i_post f)).

(** what a prior helper records: sampled vectors (site name, prior scale, vector) and penalties (site name, value) *)
Definition vectors (l : list psite) : list (string * num * list num) :=
  flat_map (fun s => match s with SNormal n sg v => (n, sg, v) :: nil | SFactor _ _ => [] end) l.
Definition penalties (l : list psite) : list (string * num) :=
  flat_map (fun s => match s with SFactor n v => (n, v) :: nil | SNormal _ _ _ => [] end) l.
Definition site_names (l : list psite) : list string := map (fun s => match s with SNormal n _ _ => n | SFactor n _ => n end) l.

(** dimension sizes that agree: (draw, grid) arrays with one row per draw and one column per grid point *)
Definition fits (n_samples : nat) (grid : dict (list num)) (key : string) (a : arr2) : Prop :=
  length (a_rows a) = n_samples /\ exists g, assoc key grid = Ok g /\ length g = a_cols a.
(** single arrays, each with one row per draw and, where there is a grid of its name, one column per grid point *)
Definition exportable (n_samples : nat) (grid : dict (list num)) (pdfs : dict pdf_val) : Prop :=
  forall key v, In (key, v) pdfs -> exists a, v = OnePdf a /\ length (a_rows a) = n_samples /\ forall g, assoc key grid = Ok g -> length g = a_cols a.
(** the coordinates of the exported data set: the grids, and the draws 0, ..., n-1 *)
Definition coords_of (grid : dict (list num)) (n : nat) : dict (list num) := union grid (("draw", map (fun i => Fin (INR i)) (seq 0 n)) :: nil).
(** the dimensions of an exported posterior: draw, key_dim2, key_dim3, ... *)
Definition dims_for (key : string) (rank : nat) : list string := "draw" :: map (fun i => (key ++ "_dim" ++ dec (i + 2))%string) (seq 0 rank).
