(** The likelihood section of a configuration: bin/gwinferno_run_from_config.py:49-60 with the keyword arguments of
    construct_hierarchical_model (gwinferno/pipeline/analysis.py:359-366). *)
From Verif Require Export MConstruct.
From Coq Require Import List.
Import ListNotations.
Open Scope R_scope.
Open Scope string_scope.
Open Scope list_scope.

(** bool(y), as the if statements of hierarchical_likelihood take it (NaN is true) *)
Definition truthy (y : yaml) : bool :=
  match y with
  | YNull => false
  | YBool b => b
  | YNum x => negb (neqb x (Fin 0))
  | YStr s => negb (String.eqb s "")
  | YList l => match l with [] => false | _ => true end
  | YMap d => match d with [] => false | _ => true end
  end.

(** analysis.py:362-365: the keyword arguments after model_dict and prior_dict *)
Definition OPTIONS : list string := ["marginalize_selection"; "min_neff_cut"; "max_variance_cut"; "posterior_predictive_check"].

(** construct_hierarchical_model(model_dict, prior_dict, **likelihood_kwargs): Python binds the keywords before the body runs.  TypeError for
    a keyword that is no parameter, for model_dict and prior_dict (bound already), and for anything but a mapping after the stars *)
Definition bind_options (kwargs : yaml) : result flags :=
  match kwargs with
  | YMap d =>
      if forallb (fun k => existsb (String.eqb k) OPTIONS) (keys d) then
        let opt k dflt := match assoc k d with Ok v => truthy v | Err _ => dflt end in
        Ok (Flags (opt "marginalize_selection" false) (opt "min_neff_cut" true) (opt "max_variance_cut" false) (opt "posterior_predictive_check" true))
      else Err TypeError
  | _ => Err TypeError
  end.

(** lines 50-53 and 60: the reader, the options, and the model they build (a models section without a python file) *)
Definition build_from_config {C D} (import : string -> string -> result C) (yml : yaml) : result (parsed C * flags * list num * cstate D) :=
  do p <- parse import yml new_reader;
  do fl <- bind_options (p_likelihood p);
  do gs <- construct_hierarchical_model (r_models (p_reader p)) (r_priors (p_reader p));
  Ok (p, fl, fst gs, snd gs).
