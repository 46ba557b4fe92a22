(** examples/utils.py:14-31 (the result directory and label of a run) and
    examples/create_simple_bspline_example_slurm_submit_script.py (the batch script that starts runs). *)
From Coq Require Export DecimalZ.
From Verif Require Export MCommand.
From Coq Require Import List.
Import ListNotations.
Open Scope R_scope.
Open Scope string_scope.
Open Scope list_scope.

(** f"{z}" for an integer *)
Definition show_int (z : Z) : string := NilZero.string_of_int (Z.to_int z).
Section Jobs.
(** f"{x}" for a float *)
Variable show_float : num -> string.
(** f"{a}" *)
Definition show (a : arg) : string :=
  match a with ANone => "None" | AStr s => s | AInt z => show_int z | AFloat x => show_float x | ABool b => if b then "True" else "False" end.

(** the options of both example scripts (simple_bspline_example.py:99-106, simple_powerlaw_peak_example.py:121-128) *)
Definition example_options : list option_decl := base_options ++ Decl "--example" "example" TStr ANone :: nil.

(** utils.py:14-31: label and directory.  str + str; a missing label or directory (None) is a TypeError.  os.makedirs and the message are not modelled. *)
Definition need_str (a : arg) : result string := match a with AStr s => Ok s | _ => Err TypeError end.
Definition setup_result_dir (ns : dict arg) : result (string * string) :=
  do rl <- assoc "run_label" ns; do rl <- need_str rl;
  do w <- assoc "warmup" ns; do s <- assoc "samples" ns; do k <- assoc "rngkey" ns;
  let label := (rl ++ "_" ++ show w ++ "w_" ++ show s ++ "s_rng" ++ show k)%string in
  do rd <- assoc "result_dir" ns; do rd <- need_str rd;
  let result_directory := (rd ++ "/" ++ rl)%string in
  let full_dir := (result_directory ++ "/rngnum-" ++ show k ++ "/" ++ show w ++ "w_" ++ show s ++ "s")%string in
  Ok (label, full_dir).
(** the files the examples write: posterior and pdfs (simple_powerlaw_peak_example.py:152, 256) and the figures (MPlot) *)
Definition posterior_file (ld : string * string) : string := (snd ld ++ "/" ++ fst ld ++ "_posterior_samples.h5")%string.
Definition pdf_file (ld : string * string) : string := (snd ld ++ "/" ++ fst ld ++ "_pdfs.h5")%string.

(** ** The batch script.  create_...py:7-107; string defaults of int options ("1") are converted by argparse *)
Definition job_options : list option_decl := [
  Decl "--help" "help" THelp ANone;
  Decl "--analysis-script" "analysis_script" TStr ANone;
  Decl "--pe-inj-file" "pe_inj_file" TStr ANone;
  Decl "--python-path" "python_path" TStr ANone;
  Decl "--result-dir" "result_dir" TStr ANone;
  Decl "--label" "label" TStr (AStr "gwinferno_analysis");
  Decl "--job-name" "job_name" TStr (AStr "gwinferno_analysis");
  Decl "--partition" "partition" TStr (AStr "gpu");
  Decl "--nodes" "nodes" TInt (AInt 1);
  Decl "--ntasks-per-node" "ntasks_per_node" TInt (AInt 1);
  Decl "--constraint" "constraint" TStr (AStr "gpu-80gb");
  Decl "--rng-keys" "rng_keys" TStr (AStr "1");
  Decl "--time" "time" TInt (AInt 1440);
  Decl "--mem" "mem" TInt (AInt 8192);
  Decl "--num-gpus" "num_gpus" TInt (AInt 1);
  Decl "--env" "env" TStr (AStr "gwinferno_gpu");
  Decl "--mmin" "mmin" TFloat (AFloat (Fin 2));
  Decl "--mmax" "mmax" TFloat (AFloat (Fin 200));
  Decl "--nsamples" "nsamples" TInt (AInt 1000);
  Decl "--nwarmup" "nwarmup" TInt (AInt 1000)].
(** 132-133: times over a day only on the long partitions *)
Definition job_time (time : Z) (partition : string) : Z := if (1440 <? time)%Z then (if contains "long" partition then time else 1440%Z) else time.
(** 134-151: (name of the file written, its lines); an empty line precedes the activation of the environment *)
Definition job_script (ns : dict arg) : result (string * list string) :=
  let get k := do a <- assoc k ns; Ok (show a) in
  do label <- get "label"; do job <- get "job_name"; do outdir <- get "result_dir"; do script <- get "analysis_script"; do mem <- get "mem";
  do time <- assoc "time" ns; do time <- match time with AInt t => Ok t | _ => Err TypeError end;
  do nodes <- get "nodes"; do ntasks <- get "ntasks_per_node"; do partition <- get "partition"; do ngpu <- get "num_gpus"; do rng <- get "rng_keys"; do env <- get "env";
  do python <- get "python_path"; do mmin <- get "mmin"; do mmax <- get "mmax"; do samples <- get "nsamples"; do warmup <- get "nwarmup"; do peinj <- get "pe_inj_file"; do constraint <- get "constraint";
  let quote := String (ascii_of_nat 34) "" in
  Ok (("submit_" ++ job ++ "_rng" ++ rng ++ ".sh")%string,
      ["#!/bin/bash";
       "#SBATCH --partition=" ++ partition ++ "       ### queue to submit to";
       "#SBATCH --job-name=" ++ job ++ "    ### job name";
       "#SBATCH --output=" ++ outdir ++ "/" ++ label ++ "/rng_%a.out   ### file in which to store job stdout";
       "#SBATCH --error=" ++ outdir ++ "/" ++ label ++ "/rng_%a.err    ### file in which to store job stderr";
       "#SBATCH --time=" ++ show_int (job_time time partition) ++ "          ### wall-clock time limit, in minutes";
       "#SBATCH --mem=" ++ mem ++ "M              ### memory limit, per cpu, in MB";
       "#SBATCH --nodes=" ++ nodes ++ "               ### number of nodes to use";
       "#SBATCH --ntasks-per-node=" ++ ntasks ++ "     ### number of tasks per node (ONLY USED FOR MPI LIKE PARALLELIZATION USE cpus-per-task for multithreading)";
       "#SBATCH -a " ++ rng;
       "#SBATCH --gres=gpu:" ++ ngpu;
       "#SBATCH --constraint=" ++ quote ++ constraint ++ quote;
       "";
       "conda activate " ++ env;
       python ++ " " ++ script ++ " --samples " ++ samples ++ " --warmup " ++ warmup ++ " --rngkey $SLURM_ARRAY_TASK_ID --run-label " ++ label ++ " --result-dir " ++ outdir ++ " --mmin " ++ mmin ++ " --mmax " ++ mmax ++ " --pe-inj-file " ++ peinj;
       "conda deactivate"]%string).
End Jobs.
(** what bash makes of a line without quotes or other expansions: words separated by spaces, the array index in place of its variable *)
Definition shell_words (task : string) (line : string) : list string :=
  map (fun w => if String.eqb w "$SLURM_ARRAY_TASK_ID" then task else w) (filter (fun w => negb (String.eqb w "")) (py_split " " line)).
