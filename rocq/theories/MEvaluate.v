(** bin/gwinferno_run_from_config.py:49-70: what the sampler evaluates in a configured run. *)
From Verif Require Export MRun.
From Coq Require Import List.
Import ListNotations.
Open Scope R_scope.
Open Scope string_scope.
Open Scope list_scope.

(** mcmc.run(rng_key_, pe_dict, inj_dict, Ninj=Ninj, Nobs=Nobs, Tobs=Tobs) (line 69): the arrays as the model gets them.  The tables of line 38
    have one row per event and as many columns as the first event has samples.  Only injection columns that are arrays, and a
    number of injections and a time that are scalars, are modelled; the number counts as a float (see C90 for integers). *)
Definition model_tables (r : inputs) : dict arr2 := map (fun kv => (fst kv, Arr2 (length (hd [] (snd kv))) (snd kv))) (in_pe r).
Definition model_columns (r : inputs) : result (dict (list num)) :=
  each (fun kv => match snd kv with IArray l => Ok (fst kv, l) | IScalar _ => Err OtherError end) (in_inj r).
Definition scalar (v : ival) : result num := match v with IScalar x => Ok x | IArray _ => Err OtherError end.

(** one evaluation in a run with a models section without a python file, in closure state [s] *)
Definition evaluate_run {C D} (import : string -> string -> result C) load_catalog load_injections (w : world C D) (rv : string -> sval) (dr : draws) (yml : yaml) (s : cstate D)
  : result (cstate D * M (option num)) :=
  do b <- build_from_config (D := D) import yml;
  let '(p, fl, grid, _) := b in
  do r <- setup load_catalog load_injections (p_data p) (keys (r_models (p_reader p)));
  do injs <- model_columns r;
  do ninj <- scalar (in_ninj r);
  do tobs <- scalar (in_tobs r);
  Ok (call_model w fl (r_models (p_reader p)) (r_priors (p_reader p)) grid rv dr (model_tables r) injs (CFloat ninj) (in_nobs r) tobs s).
