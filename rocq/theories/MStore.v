(** Saving the data sets and reading them back: gwinferno/preprocess/data_collection.py:203-207 and
    gwinferno/pipeline/utils.py:51-96.  The files are a map from names to contents; writing and reading a netCDF file is trusted
    to preserve its labels, arrays and attributes. *)
From Verif Require Export MUtils MCollect.
Open Scope R_scope.
Open Scope string_scope.
Open Scope list_scope.

Definition files : Type := dict idata.
(** data_collection.py:204: az.InferenceData(pe_data=..., inj_data=...) *)
Definition file_of (a : pe_array) (i : inj_array) : idata :=
  IData (pe_events a) (pe_params a) (pe_values a) (keys (ij_params i)) (map snd (ij_params i)) (ij_total i) (ij_time i).
(** data_collection.py:203-207; to_netcdf replaces a file of that name *)
Definition save_posterior_samples_and_injection_datasets_as_idata (fs : files) (filename : string) (a : pe_array) (i : inj_array) : result files :=
  match String.index 0 ".h5" filename with
  | None => Err AssertionError
  | Some _ => Ok (dset filename (file_of a i) fs)
  end.
(** utils.py:74-96; a file that does not exist raises FileNotFoundError *)
Definition load_file (fs : files) (filename : string) (ignore : option (list string))
  : result (dict (list (list num)) * dict (list num) * constants * list string) :=
  match assoc filename fs with Ok f => load_pe_and_injections_as_dict f ignore | Err _ => Err OtherError end.
(** a session that saves several data sets: a call that raises leaves the files as they are *)
Definition after_save (fs : files) (s : string * (pe_array * inj_array)) : files :=
  match save_posterior_samples_and_injection_datasets_as_idata fs (fst s) (fst (snd s)) (snd (snd s)) with Ok fs' => fs' | Err _ => fs end.
Definition after_saves (fs : files) (ss : list (string * (pe_array * inj_array))) : files := fold_left after_save ss fs.
