(** bin/gwinferno_run_from_config.py:74-96: the trace plot and the saved samples. *)
From Verif Require Export MConstruct.
From Coq Require Import List.
Import ListNotations.
Open Scope R_scope.
Open Scope string_scope.
Open Scope list_scope.

(** The names az.from_numpyro(mcmc) puts in the posterior group (line 75), which are also those of mcmc.get_samples (line 79):
    the sample and deterministic sites of the model, without plates and factors.  One call of the model stands for all draws: its
    sites do not depend on the draw (C99). *)
Definition posterior_names {D} (out : cstate D * M (option num)) : list string :=
  map fst (c_sites (fst out)) ++ map s_name (filter (fun s => match s_kind s with Sample | Deterministic => true | _ => false end) (fst (snd out))).

(** lines 74-80: the files written, in order, each with the names of the variables in it, and how the call ends.  az.plot_trace raises
    KeyError for a name that is not in the posterior; the drawings and the arrays are not modelled. *)
Definition plot_trace_dump_samples (posterior var_names : list string) (label : string) : list (string * list string) * result unit :=
  if forallb (fun v => existsb (String.eqb v) posterior) var_names
  then ([((label ++ "_trace.png")%string, var_names); ((label ++ "_posterior_samples.h5")%string, posterior)], Ok tt)
  else ([], Err KeyError).

(** lines 83-92, after run_inference returned the sampler, the sampling parameters, the label and the output directory.
    A label or directory that is not a string is formatted by Python; this is not modelled (OtherError). *)
Definition finish {C D} (p : parsed C) (out : cstate D * M (option num)) : list (string * list string) * result unit :=
  match p_outdir p, p_label p with
  | YStr outdir, YStr lab =>
      let label := (outdir ++ "/" ++ lab)%string in
      let var_names := r_sampling (p_reader p) ++ ["rate"; "log_nEffs"; "log_nEff_inj"; "log_l"] in
      plot_trace_dump_samples (posterior_names out) var_names label
  | _, _ => ([], Err OtherError)
  end.
