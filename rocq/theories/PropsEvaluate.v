(** Property theorems C123: the evaluations of a configured run. *)
From Verif Require Import PEvaluate PropsOptions PropsPipeline PropsRun.
From Verif Require Import SpecConstruct SpecParser SpecEvaluate.
From Coq Require Import List Lra.
Import ListNotations.
Open Scope R_scope.
Open Scope string_scope.
Open Scope list_scope.

(** with any data loaders in place of the missing ones (C110), each evaluation of a configured run is the hierarchical likelihood of the declared
    population: the log weight of sample j of event i comes from that event's values of the modelled parameters and its prior, and so for the injections *)
Theorem C123_run_evaluates : forall (C D : Type) (import : string -> string -> result C) lc li (w : world C D) rv dr doc p zmax decl vals sites pops zd vt section m nf v c
    dc info semi spin cat (f : R) inj t0 t1 n ni,
  let yml := sub "models" doc in let params := map fst (entries yml) in
  let grid := nlinspace (Fin (/ 10 ^ 9)) zmax 1000 in
  wf doc -> ~ has "python_file" yml -> (forall k s, In (k, s) (entries yml) -> ~ shares s) -> NoDup (map fst (declared yml)) ->
  parse import doc new_reader = Ok p ->
  has "redshift" yml -> In ("redshift_maximum", decl) (declared yml) -> has_value decl = true -> sub "value" decl = YNum zmax ->
  values_of import w rv (filter (fun kv => has_prior (snd kv) || has_value (snd kv))%bool (declared yml)) vals sites ->
  Forall2 (fun ks kd => fst ks = fst kd /\ model_of import w vals grid (fst ks) (snd ks) (snd kd)) (entries yml) pops ->
  assoc "redshift" pops = Ok zd -> w_norm w zd = Some vt ->
  likelihood_section doc section -> is_section section ->
  chosen section "marginalize_selection" false m -> chosen section "min_neff_cut" true nf -> chosen section "max_variance_cut" false v -> chosen section "posterior_predictive_check" true c ->
  sub "data" doc = YMap dc -> ~ In "prior" params ->
  spin_model params spin -> assoc "catalog_summary_json" dc = Ok info -> assoc "seminanalytic_injs" dc = Ok semi ->
  lc info spin = Ok cat -> ct_far cat = Fin f -> f <> 0 -> li (ct_injfile cat) (Fin (1 / f)) spin semi = Ok inj -> assoc "total_generated" inj = Ok (IScalar t0) -> assoc "analysis_time" inj = Ok (IScalar t1) ->
  rectangular cat params n -> injection_columns params ni inj ->
  forall s, reachable (r_models (p_reader p)) (r_priors (p_reader p)) s ->
  exists out samps injs, evaluate_run import lc li w rv dr doc s = Ok out /\ c_sites (fst out) = sites /\ holds_samples cat params n samps /\ holds_injections inj params ni injs /\
    snd out = hierarchical_likelihood {| total_inj := CFloat t0; Nobs := length (ct_names cat); Tobs := t1; surveyed_hypervolume := Some vt;
         categorical := false; marginal_qs := false; indv_weights := []; reconstruct_rate := true;
         marginalize_selection := m; min_neff_cut := nf; max_variance_cut := v; posterior_predictive_check := c;
         param_names := Some params; pedata := Some samps; injdata := Some injs; m2min := Fin 2; m1min := Fin 2; mmax := Fin 100; logw := true |} dr
      (PEOne (Arr2 n (map (fun ev => map (fun j => log_weight w pops (fun k => sample_of cat ev k j)) (seq 0 n)) (ct_names cat))))
      (map (fun j => log_weight w pops (fun k => injection_of inj k j)) (seq 0 ni)).
Proof. exact run_evaluates. Qed.
Print Assumptions C123_run_evaluates.

(** the document of C99 with a data section, two events of two samples, one injection *)
Definition data123 : list (string * yaml) := [("catalog_summary_json", YStr "c"); ("seminanalytic_injs", YBool false)].
Definition doc123 : yaml := match doc99 with YMap d => YMap (d ++ ("data", YMap data123) :: nil) | y => y end.
Definition event123 (a b : R) : dict (list num) := [("mass_1", [Fin a; Fin b]); ("redshift", [Fin 1; Fin (1/2)]); ("prior", [Fin 1; Fin 1])].
Definition cat123 : catalog := Catalog [("A", event123 30 31); ("B", event123 20 21)] ["A"; "B"] "inj.h5" (Fin 2).
Definition inj123 : dict ival := [("mass_1", IArray (Fin 5 :: nil)); ("total_generated", IScalar (Fin 100)); ("redshift", IArray (Fin 1 :: nil)); ("prior", IArray (Fin 1 :: nil)); ("analysis_time", IScalar (Fin 1))].
Example C123_case : wf doc123 /\ sub "models" doc123 = sub "models" doc99 /\ sub "data" doc123 = YMap data123 /\ (exists p, parse (fun m f => Ok f) doc123 new_reader = Ok p) /\
  likelihood_section doc123 (YMap []) /\ is_section (YMap []) /\ (forall k b, chosen (YMap []) k b b) /\
  (let params := map fst (entries (sub "models" doc123)) in ~ In "prior" params /\ spin_model params false /\ rectangular cat123 params 2 /\ injection_columns params 1 inj123).
Proof.
  split; [cbn; repeat (split || constructor); cbn; intuition discriminate|]. split; [reflexivity|]. split; [reflexivity|]. split; [eexists; reflexivity|].
  split; [split; [unfold has; cbn; intuition discriminate|reflexivity]|]. split; [exists []; split; [reflexivity|intros k []]|]. split; [intros k b; split; [intros []|reflexivity]|].
  cbv zeta. replace (map fst (entries (sub "models" doc123))) with ["mass_1"; "redshift"] by reflexivity. split; [cbn; intuition discriminate|]. split; [unfold spin_model; cbn; intuition discriminate|]. split.
  - split; [discriminate|]. intros ev q I P. assert (Q : q = "mass_1" \/ q = "redshift" \/ q = "prior") by (cbn in P; intuition). destruct I as [<-|[<-|[]]]; destruct Q as [->|[->| ->]]; eexists; (split; [eexists; split; reflexivity|reflexivity]).
  - intros q P. assert (Q : q = "mass_1" \/ q = "redshift" \/ q = "prior") by (cbn in P; intuition). destruct Q as [->|[->| ->]]; (split; [discriminate|]); (split; [discriminate|]); eexists; split; reflexivity.
Qed.
