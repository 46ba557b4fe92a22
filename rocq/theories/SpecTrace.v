(** Vocabulary for the statements about the outputs of bin/gwinferno_run_from_config.py. *)
From Verif Require Export MTrace SpecParser.
Open Scope R_scope.
Open Scope string_scope.
Open Scope list_scope.

(** the text of a top-level setting, or its default when the document does not have it *)
Definition setting (key dflt : string) (doc : yaml) (text : string) : Prop :=
  (has key doc -> sub key doc = YStr text) /\ (~ has key doc -> text = dflt).
(** the variables to be traced: the hyper-parameters declared with a prior, in order, and four quantities of the likelihood *)
Definition to_trace (models : yaml) : list string :=
  map fst (filter (fun kv => has_prior (snd kv)) (declared models)) ++ ["rate"; "log_nEffs"; "log_nEff_inj"; "log_l"].
(** a finished run: the plot shows these variables, and the samples of all of them are in the file saved after it *)
Definition finished (outdir label : string) (models : yaml) (res : list (string * list string) * result unit) : Prop :=
  exists saved, res = ([((outdir ++ "/" ++ label ++ "_trace.png")%string, to_trace models); ((outdir ++ "/" ++ label ++ "_posterior_samples.h5")%string, saved)], Ok tt) /\
    incl (to_trace models) saved.
