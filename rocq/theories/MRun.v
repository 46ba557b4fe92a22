(** bin/gwinferno_run_from_config.py: the script that runs an analysis from a configuration file. *)
From Verif Require Export MConstruct MOptions.
From Coq Require Import List.
Import ListNotations.
Open Scope R_scope.
Open Scope string_scope.
Open Scope list_scope.

(** ** The imports of the package (lines 12-17) *)
(** the names bound at the top level of the four modules imported from (pipeline/analysis.py, pipeline/parser.py,
    preprocess/data_collection.py, preprocess/selection.py: their imports, definitions and assignments) *)
Definition module_names (m : string) : list string :=
  if String.eqb m "gwinferno.pipeline.analysis" then
    ["partial"; "jnp"; "numpyro"; "dist"; "jit"; "random"; "logsumexp"; "SVI"; "Trace_ELBO"; "autoguide"; "Adam"; "PopMixtureModel"; "PopModel"; "NP_KERNEL_MAP"; "find_map"; "per_event_log_bayes_factors"; "detection_efficiency"; "hierarchical_likelihood"; "construct_hierarchical_model"]
  else if String.eqb m "gwinferno.pipeline.parser" then
    ["sys"; "ArgumentParser"; "import_module"; "jnp"; "yaml"; "PopModel"; "PopPrior"; "PopMixtureModel"; "load_model_from_python_file"; "load_dist_from_string"; "ConfigReader"; "load_base_parser"]
  else if String.eqb m "gwinferno.preprocess.data_collection" then
    ["json"; "az"; "h5py"; "jnp"; "np"; "xr"; "trapezoid"; "trange"; "cosmo"; "chieff_from_q_component_spins"; "chip_from_q_component_spins"; "chi_effective_prior_from_isotropic_spins"; "joint_prior_from_isotropic_spins"; "get_o3_cumulative_injection_dict"; "get_o4a_cumulative_injection_dict"; "unprocessed_catalog_dict_from_metadata"; "processed_catalog_dataset_from_dict"; "dl_2_prior_on_z"; "append_prior_to_processed_catalog"; "load_posterior_dataset"; "load_injection_dataset"; "save_posterior_samples_and_injection_datasets_as_idata"; "convert_component_spins_to_chieff"]
  else if String.eqb m "gwinferno.preprocess.selection" then
    ["h5py"; "jnp"; "np"; "xr"; "random"; "get_o4a_cumulative_injection_dict"; "get_o3_cumulative_injection_dict"; "resample_injections"]
  else [].
Definition script_imports : list (string * string) :=
  [("gwinferno.pipeline.analysis", "NP_KERNEL_MAP"); ("gwinferno.pipeline.analysis", "construct_hierarchical_model");
   ("gwinferno.pipeline.parser", "ConfigReader"); ("gwinferno.pipeline.parser", "load_model_from_python_file");
   ("gwinferno.preprocess.data_collection", "load_catalog_from_metadata"); ("gwinferno.preprocess.selection", "load_injection_dataset")].
(** from m import n *)
Definition import_from (mn : string * string) : result unit :=
  if existsb (String.eqb (snd mn)) (module_names (fst mn)) then Ok tt else Err ImportError.
Fixpoint import_each (l : list (string * string)) : result unit :=
  match l with [] => Ok tt | mn :: r => do _ <- import_from mn; import_each r end.

(** ** setup (lines 29-46), with the two missing loaders as arguments *)
Record catalog : Type := Catalog { ct_pe : dict (dict (list num)); ct_names : list string; ct_injfile : string; ct_far : num }.
Inductive ival : Type := IScalar (x : num) | IArray (l : list num).
Record inputs : Type := Inputs { in_pe : dict (list (list num)); in_inj : dict ival; in_ninj : ival; in_nobs : nat; in_tobs : ival }.
(** d.pop(k) *)
Fixpoint ddel {A} (k : string) (d : dict A) : dict A := match d with [] => [] | (k', v) :: r => if String.eqb k k' then r else (k', v) :: ddel k r end.
(** new_pe_dict[p][i, :] = values: numpy broadcasts one value, and raises ValueError for other lengths *)
Definition fill_row (n : nat) (v : list num) : result (list num) :=
  if Nat.eqb (length v) n then Ok v else match v with [x] => Ok (repeat x n) | _ => Err ValueError end.
Fixpoint each {A B} (f : A -> result B) (l : list A) : result (list B) :=
  match l with [] => Ok [] | a :: r => do b <- f a; do bs <- each f r; Ok (b :: bs) end.
(** lines 39-43.  The loop runs over events first, parameters second. *)
Definition event_rows (pe : dict (dict (list num))) (params : list string) (n : nat) (ev : string) : result (dict (list num)) :=
  each (fun p => do e <- assoc ev pe; do v <- assoc p e; do r <- fill_row n v; Ok (p, r)) params.
Definition setup (load_catalog : yaml -> bool -> result catalog) (load_injections : string -> num -> bool -> yaml -> result (dict ival))
  (data_conf : yaml) (params : list string) : result inputs :=
  do info <- yget "catalog_summary_json" data_conf;
  let params := params ++ "prior" :: nil in
  let spin := (existsb (String.eqb "a_1") params || existsb (String.eqb "chi_eff") params)%bool in
  do cat <- load_catalog info spin;
  do ifar <- (if neqb (ct_far cat) (Fin 0) then Err ZeroDivision else Ok (ndiv (Fin 1) (ct_far cat)));
  do semi <- yget "seminanalytic_injs" data_conf;
  do inj <- load_injections (ct_injfile cat) ifar spin semi;
  do ninj <- assoc "total_generated" inj;
  let inj := ddel "total_generated" inj in
  do tobs <- assoc "analysis_time" inj;
  let inj := ddel "analysis_time" inj in
  do first <- match ct_names cat with [] => Err IndexError | n :: _ => Ok n end;
  do e <- assoc first (ct_pe cat);
  do m <- assoc "mass_1" e;
  do rows <- each (event_rows (ct_pe cat) params (length m)) (ct_names cat);
  do pe <- each (fun p => do col <- each (assoc p) rows; Ok (p, col)) params;
  do ij <- each (fun p => do v <- assoc p inj; Ok (p, v)) params;
  Ok (Inputs pe ij ninj (length (ct_names cat)) tobs).

(** ** run_inference (lines 49-72) up to mcmc.run: the kernel and the arguments of the model *)
Definition KERNELS : list string := ["NUTS"; "HMC"].
Definition run_inference {C} (import : string -> string -> result C) load_catalog load_injections (yml : yaml) : result (string * inputs) :=
  do c <- parse import yml new_reader;
  let models := r_models (p_reader c) in
  do _ <- (match assoc "file_path" models with
           | Ok (EIid path) => do _ <- snd (load_model_from_python_file import path); Ok tt
           | Ok _ => Err AttributeError
           | Err _ => do _ <- bind_options (p_likelihood c); do _ <- construct_hierarchical_model (D := unit) models (r_priors (p_reader c)); Ok tt
           end);
  do args <- setup load_catalog load_injections (p_data c) (keys models);
  do k <- yget "kernel" (p_sampler c);
  do k <- ystr KeyError k;
  do _ <- (if existsb (String.eqb k) KERNELS then Ok tt else Err KeyError);
  do _ <- yget "kernel_kwargs" (p_sampler c);
  do _ <- yget "mcmc_kwargs" (p_sampler c);
  Ok (k, args).
(** running the file: the imports come first *)
Definition run_script {C} (import : string -> string -> result C) load_catalog load_injections (yml : yaml) : result (string * inputs) :=
  do _ <- import_each script_imports;
  run_inference import load_catalog load_injections yml.
