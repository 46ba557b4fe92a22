(** Property theorems C121: the files a finished run leaves. *)
From Verif Require Import PTrace PropsPipeline.
From Verif Require Import SpecConstruct SpecParser SpecTrace.
Open Scope R_scope.
Open Scope string_scope.
Open Scope list_scope.

(** C121; partial: as long as no two declarations share a key ([C121_samples_lost_refuted]).  A run whose model completes plots the trace and then
    saves the samples, under the configured directory and label: every traced name is a site of the model *)
Theorem C121_files_partial : forall (C D : Type) (import : string -> string -> result C) (w : world C D) fl rv dr doc p outdir label grid samps injs ninj nobs tobs s rate,
  wf doc -> ~ has "python_file" (sub "models" doc) -> NoDup (map fst (declared (sub "models" doc))) -> parse import doc new_reader = Ok p ->
  setting "outdir" "./" doc outdir -> setting "label" "label" doc label -> (forall c ps, w_prior w c ps <> Err AttributeError) ->
  let out := call_model w fl (r_models (p_reader p)) (r_priors (p_reader p)) grid rv dr samps injs ninj nobs tobs s in
  snd (snd out) = Ok rate -> finished outdir label (sub "models" doc) (finish p out).
Proof. exact trace_written. Qed.
Print Assumptions C121_files_partial.

(** with a key declared twice, once with a prior and then with a value, every completed run ends with KeyError before the samples are saved *)
Definition twice : yaml := YMap [("a", YMap [("model", YStr "m.P"); ("hyper_params", YMap (("1_alpha", decl67) :: nil))]);
  ("a_1", YMap [("model", YStr "m.P"); ("hyper_params", YMap (("alpha", YMap (("value", YNum (Fin 4)) :: nil)) :: nil))]);
  ("redshift", YMap [("model", YStr "m.Z"); ("hyper_params", YMap (("maximum", zmax99) :: nil))])].
Theorem C121_samples_lost_refuted : exists (import : string -> string -> result string) p, wf twice /\ parse import (YMap (("models", twice) :: nil)) new_reader = Ok p /\
  forall (D : Type) (w : world string D) fl rv dr grid samps injs ninj nobs tobs s rate,
    let out := call_model w fl (r_models (p_reader p)) (r_priors (p_reader p)) grid rv dr samps injs ninj nobs tobs s in
    snd (snd out) = Ok rate -> finish p out = ([], Err KeyError).
Proof.
  exists (fun m f => Ok f). eexists. split; [cbn; repeat (split || constructor); cbn; intuition discriminate|]. split; [reflexivity|]. intros D w fl rv dr grid samps injs ninj nobs tobs s rate.
  eapply trace_lost with (name := "a_1_alpha"); try reflexivity; try (cbn; intuition discriminate); cbn; repeat constructor; cbn; intuition discriminate.
Qed.
Print Assumptions C121_samples_lost_refuted.

(** both kinds of document have runs that complete *)
Definition flat : world string unit := World (fun _ _ => Ok tt) (fun _ _ => Ok tt) (fun _ _ _ => Ok tt) (fun _ _ => Fin 0) (fun _ => Some (Fin 1)).
Example C121_case : forall doc, doc = twice \/ doc = sub "models" doc99 -> exists p dr samps injs (s : cstate unit) rate,
  parse (fun m f => Ok f) (YMap (("models", doc) :: nil)) new_reader = Ok p /\ reachable (r_models (p_reader p)) (r_priors (p_reader p)) s /\
  snd (snd (call_model flat (Flags false false false false) (r_models (p_reader p)) (r_priors (p_reader p)) [] (fun _ => Scal (Fin 3)) dr samps injs (CFloat (Fin 5)) 1 (Fin 1) s)) = Ok rate.
Proof.
  intros doc [-> | ->]; eexists; exists (Draws [] (Fin 1) (fun _ => Fin 0) (fun _ => Fin 0)), (map (fun k => (k, Arr2 1 [[Fin 1]])) ["a"; "a_1"; "mass_1"; "redshift"; "prior"]), (map (fun k => (k, [Fin 1])) ["a"; "a_1"; "mass_1"; "redshift"; "prior"]);
    eexists; eexists; (split; [reflexivity|]); (split; [eapply (reach_new _ _ _); reflexivity|]); reflexivity.
Qed.
