(** Vocabulary for the statements about runs, their directories and the batch script. *)
From Verif Require Export MJobs SpecCommand.
From Coq Require Import List.
Import ListNotations.
Open Scope R_scope.
Open Scope string_scope.
Open Scope list_scope.

Definition occurs (c : ascii) (s : string) : Prop := In c (list_ascii_of_string s).
(** the settings of a run that name its results *)
Definition run_is (ns : dict arg) (label : string) (warmup samples rngkey : Z) (dir : string) : Prop :=
  assoc "run_label" ns = Ok (AStr label) /\ assoc "warmup" ns = Ok (AInt warmup) /\ assoc "samples" ns = Ok (AInt samples) /\
  assoc "rngkey" ns = Ok (AInt rngkey) /\ assoc "result_dir" ns = Ok (AStr dir).
(** a file name in a directory *)
Definition file_in (dir name : string) : string := (dir ++ "/" ++ name)%string.
(** words bash leaves alone and argparse takes for a value *)
Definition plain (s : string) : Prop := s <> "" /\ ~ occurs " " s /\ ~ occurs "$" s /\ String.prefix "-" s = false.
(** what was asked of the batch script *)
Record job : Type := Job { j_python : string; j_script : string; j_label : string; j_dir : string; j_file : string; j_samples : Z; j_warmup : Z; j_mmin : R; j_mmax : R; j_time : Z; j_partition : string }.
Definition job_is (ns : dict arg) (j : job) : Prop :=
  assoc "python_path" ns = Ok (AStr (j_python j)) /\ assoc "analysis_script" ns = Ok (AStr (j_script j)) /\ assoc "label" ns = Ok (AStr (j_label j)) /\
  assoc "result_dir" ns = Ok (AStr (j_dir j)) /\ assoc "pe_inj_file" ns = Ok (AStr (j_file j)) /\ assoc "nsamples" ns = Ok (AInt (j_samples j)) /\ assoc "nwarmup" ns = Ok (AInt (j_warmup j)) /\
  assoc "mmin" ns = Ok (AFloat (Fin (j_mmin j))) /\ assoc "mmax" ns = Ok (AFloat (Fin (j_mmax j))) /\ assoc "time" ns = Ok (AInt (j_time j)) /\ assoc "partition" ns = Ok (AStr (j_partition j)) /\
  (forall k, In k ["job_name"; "mem"; "nodes"; "ntasks_per_node"; "num_gpus"; "rng_keys"; "env"; "constraint"] -> exists a, assoc k ns = Ok a).
Definition plain_job (show_float : num -> string) (j : job) : Prop :=
  plain (j_python j) /\ plain (j_script j) /\ plain (j_label j) /\ plain (j_dir j) /\ plain (j_file j) /\ plain (show_float (Fin (j_mmin j))) /\ plain (show_float (Fin (j_mmax j))) /\
  (0 <= j_samples j)%Z /\ (0 <= j_warmup j)%Z.
(** int reads what f-strings write, and float does for the two masses *)
Definition reads_back (py_int : string -> option Z) (py_float : string -> option num) (show_float : num -> string) (j : job) : Prop :=
  (forall z, py_int (show_int z) = Some z) /\ py_float (show_float (Fin (j_mmin j))) = Some (Fin (j_mmin j)) /\ py_float (show_float (Fin (j_mmax j))) = Some (Fin (j_mmax j)).
