(** Property theorems C122: the likelihood section of a configuration. *)
From Verif Require Import POptions PropsPipeline MRun.
From Verif Require Import SpecConstruct SpecParser SpecEnd SpecOptions.
Open Scope R_scope.
Open Scope string_scope.
Open Scope list_scope.

(** the likelihood is evaluated with the corrections the section asks for, the others at their defaults, in every call *)
Theorem C122_options_used : forall (C D : Type) (import : string -> string -> result C) (w : world C D) rv dr doc p zmax decl samps injs E n ni vals sites pops zd vt ninj nobs tobs section
    marginalize neff variance check,
  let yml := sub "models" doc in
  let grid := nlinspace (Fin (/ 10 ^ 9)) zmax 1000 in
  wf doc -> ~ has "python_file" yml -> (forall k s, In (k, s) (entries yml) -> ~ shares s) -> NoDup (map fst (declared yml)) ->
  parse import doc new_reader = Ok p ->
  has "redshift" yml -> In ("redshift_maximum", decl) (declared yml) -> has_value decl = true -> sub "value" decl = YNum zmax ->
  values_of import w rv (filter (fun kv => has_prior (snd kv) || has_value (snd kv))%bool (declared yml)) vals sites ->
  Forall2 (fun ks kd => fst ks = fst kd /\ model_of import w vals grid (fst ks) (snd ks) (snd kd)) (entries yml) pops ->
  Forall (has_table E n samps) ("prior" :: map fst (entries yml)) -> Forall (has_column ni injs) ("prior" :: map fst (entries yml)) ->
  assoc "redshift" pops = Ok zd -> w_norm w zd = Some vt ->
  likelihood_section doc section -> is_section section ->
  chosen section "marginalize_selection" false marginalize -> chosen section "min_neff_cut" true neff ->
  chosen section "max_variance_cut" false variance -> chosen section "posterior_predictive_check" true check ->
  exists fl (s0 : cstate D), build_from_config import doc = Ok (p, fl, grid, s0) /\
  forall s, reachable (r_models (p_reader p)) (r_priors (p_reader p)) s ->
    snd (call_model w fl (r_models (p_reader p)) (r_priors (p_reader p)) grid rv dr samps injs ninj nobs tobs s) =
    hierarchical_likelihood {| total_inj := ninj; Nobs := nobs; Tobs := tobs; surveyed_hypervolume := Some vt;
         categorical := false; marginal_qs := false; indv_weights := []; reconstruct_rate := true;
         marginalize_selection := marginalize; min_neff_cut := neff; max_variance_cut := variance; posterior_predictive_check := check;
         param_names := Some (map fst (entries yml)); pedata := Some samps; injdata := Some injs; m2min := Fin 2; m1min := Fin 2; mmax := Fin 100; logw := true |} dr
      (PEOne (weights_of_samples w pops samps E n)) (weights_of_injections w pops injs ni).
Proof. exact options_used. Qed.
Print Assumptions C122_options_used.
(** an unknown option, or a section that is no mapping (such as an empty one), is refused before anything is built *)
Theorem C122_unknown_options_refused : forall (C D : Type) (import : string -> string -> result C) doc p section, parse import doc new_reader = Ok p -> likelihood_section doc section ->
  ~ is_section section -> @build_from_config C D import doc = Err TypeError.
Proof. exact options_refused. Qed.
Print Assumptions C122_unknown_options_refused.
(** so a run of the script that reaches the sampler had a section of known options *)
Theorem C122_script_options : forall (C : Type) (import : string -> string -> result C) lc li doc p k r section, run_inference import lc li doc = Ok (k, r) -> parse import doc new_reader = Ok p ->
  ~ In "file_path" (keys (r_models (p_reader p))) -> likelihood_section doc section -> is_section section.
Proof. exact run_options. Qed.
Print Assumptions C122_script_options.
(** the variance cut beside another correction is refused by every call, whatever the data; the cut on the effective samples is on unless switched off *)
Theorem C122_contradictory_options_refused : forall (C D : Type) (import : string -> string -> result C) (w : world C D) doc p section marginalize neff fl grid (s0 : cstate D) rv dr samps injs ninj nobs tobs s,
  likelihood_section doc section -> chosen section "marginalize_selection" false marginalize -> chosen section "min_neff_cut" true neff -> chosen section "max_variance_cut" false true ->
  marginalize = true \/ neff = true -> build_from_config import doc = Ok (p, fl, grid, s0) ->
  raises (snd (call_model w fl (r_models (p_reader p)) (r_priors (p_reader p)) grid rv dr samps injs ninj nobs tobs s)).
Proof. exact contradictory. Qed.
Print Assumptions C122_contradictory_options_refused.

(** the document of C99 with a likelihood section; with the variance cut alone; with a misspelt option; with an empty section *)
Definition with_section (section : yaml) : yaml := match doc99 with YMap d => YMap (d ++ ("likelihood", section) :: nil) | y => y end.
Example C122_case :
  let section := YMap [("marginalize_selection", YBool true); ("min_neff_cut", YNum (Fin 0))] in
  wf (with_section section) /\ sub "models" (with_section section) = sub "models" doc99 /\ likelihood_section (with_section section) section /\ is_section section /\
  chosen section "marginalize_selection" false true /\ chosen section "min_neff_cut" true false /\ chosen section "max_variance_cut" false false /\ chosen section "posterior_predictive_check" true true /\
  (exists p, parse (fun m f => Ok f) (with_section section) new_reader = Ok p) /\
  (let alone := YMap (("max_variance_cut", YBool true) :: nil) in likelihood_section (with_section alone) alone /\ chosen alone "max_variance_cut" false true /\ chosen alone "min_neff_cut" true true /\
     exists r : parsed string * flags * list num * cstate unit, build_from_config (fun m f => Ok f) (with_section alone) = Ok r) /\
  (forall bad, bad = YNull \/ bad = YMap (("min_neff", YBool true) :: nil) -> ~ is_section bad /\ likelihood_section (with_section bad) bad).
Proof.
  assert (L : forall y, likelihood_section (with_section y) y) by (intros y; split; [reflexivity|intros N; exfalso; apply N; unfold has; cbn; tauto]).
  assert (O : forall y, off y -> truthy y = false) by (intros; now apply truthy_off).
  assert (ON : forall y, truthy y = true -> (true = false <-> off y)) by (intros y H; split; [discriminate|intros F; apply O in F; congruence]).
  cbv zeta. split; [cbn; repeat (split || constructor); cbn; intuition discriminate|]. split; [reflexivity|]. split; [apply L|]. split; [eexists; split; [reflexivity|]; intros k [<-|[<-|[]]]; cbn; tauto|].
  split; [split; [intros _; apply ON; reflexivity|intros N; exfalso; apply N; unfold has; cbn; tauto]|].
  split; [split; [intros _; cbn; unfold off; tauto|intros N; exfalso; apply N; unfold has; cbn; tauto]|].
  split; [split; [unfold has; cbn; intuition discriminate|reflexivity]|]. split; [split; [unfold has; cbn; intuition discriminate|reflexivity]|].
  split; [eexists; reflexivity|]. split.
  - split; [apply L|]. split; [split; [intros _; apply ON; reflexivity|intros N; exfalso; apply N; unfold has; cbn; tauto]|]. split; [split; [unfold has; cbn; intuition discriminate|reflexivity]|].
    eexists. unfold build_from_config. cbn -[nlinspace]. reflexivity.
  - intros bad [-> | ->]; (split; [|apply L]); intros (d & E & H); [discriminate|]. injection E as <-. specialize (H _ (or_introl eq_refl)). cbn in H. intuition discriminate.
Qed.
