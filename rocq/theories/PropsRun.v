(** Property theorem C110: running an analysis from a configuration file. *)
From Coq Require Import Lra Lia.
From Verif Require Import PRun NumFacts.
From Verif Require Import SpecRun.
From Coq Require Import List.
Import ListNotations.
Open Scope R_scope.
Open Scope string_scope.
Open Scope list_scope.

(** a configuration file runs an analysis: no configuration does, the script imports two functions that do not exist *)
Theorem C110_script_refuted : forall C (import : string -> string -> result C) lc li yml, run_script import lc li yml = Err ImportError.
Proof. exact @script_fails. Qed.
Print Assumptions C110_script_refuted.
(** these are the two data loaders; the other imports of the script succeed *)
Theorem C110_missing_names_refuted : forall m n, In (m, n) script_imports ->
  import_from (m, n) = if (String.eqb n "load_catalog_from_metadata" || String.eqb n "load_injection_dataset")%bool then Err ImportError else Ok tt.
Proof. exact missing_imports. Qed.
Print Assumptions C110_missing_names_refuted.
(** given any loaders in their place, the model receives for every modelled parameter and for the prior the samples of each event, in order, and the injections *)
Theorem C110_arrays : forall lc li d info semi params spin cat (f : R) inj t0 t1 n, spin_model params spin -> assoc "catalog_summary_json" d = Ok info -> assoc "seminanalytic_injs" d = Ok semi ->
  lc info spin = Ok cat -> ct_far cat = Fin f -> f <> 0 -> li (ct_injfile cat) (Fin (1 / f)) spin semi = Ok inj -> assoc "total_generated" inj = Ok t0 -> assoc "analysis_time" inj = Ok t1 ->
  rectangular cat params n -> has_injections params inj -> exists r, setup lc li (YMap d) params = Ok r /\ arrays_of cat inj params r.
Proof. exact setup_ok. Qed.
Print Assumptions C110_arrays.
(** a run that reaches the sampler used the parameters of the configuration's models, its data section and its kernel *)
Theorem C110_run : forall C (import : string -> string -> result C) lc li yml k r, run_inference import lc li yml = Ok (k, r) ->
  exists c, parse import yml new_reader = Ok c /\ setup lc li (p_data c) (keys (r_models (p_reader c))) = Ok r /\ yget "kernel" (p_sampler c) = Ok (YStr k) /\ (k = "NUTS" \/ k = "HMC").
Proof. exact @run_models. Qed.
Print Assumptions C110_run.
(** an event without a modelled parameter is refused *)
Theorem C110_missing_parameter : forall lc li d info semi params spin cat (f : R) inj t0 t1 n p ev, spin_model params spin -> assoc "catalog_summary_json" d = Ok info -> assoc "seminanalytic_injs" d = Ok semi ->
  lc info spin = Ok cat -> ct_far cat = Fin f -> f <> 0 -> li (ct_injfile cat) (Fin (1 / f)) spin semi = Ok inj -> assoc "total_generated" inj = Ok t0 -> assoc "analysis_time" inj = Ok t1 ->
  (forall ev, In ev (ct_names cat) -> exists e, assoc ev (ct_pe cat) = Ok e /\ (forall q v, assoc q e = Ok v -> length v = n) /\ exists m, assoc "mass_1" e = Ok m) ->
  In ev (ct_names cat) -> p = "prior" \/ In p params -> (forall v, ~ samples_are cat ev p v) -> setup lc li (YMap d) params = Err KeyError.
Proof. exact setup_missing. Qed.
Print Assumptions C110_missing_parameter.
(** a run that is not refused has, for every event and parameter, as many samples as the first event (or a single value for all) *)
Theorem C110_same_lengths : forall lc li d info params spin cat r first e m, spin_model params spin -> assoc "catalog_summary_json" d = Ok info -> lc info spin = Ok cat -> setup lc li (YMap d) params = Ok r ->
  nth_error (ct_names cat) 0 = Some first -> assoc first (ct_pe cat) = Ok e -> assoc "mass_1" e = Ok m ->
  forall ev p, In ev (ct_names cat) -> p = "prior" \/ In p params -> exists v, samples_are cat ev p v /\ (length v = length m \/ length v = 1%nat).
Proof. exact setup_same. Qed.
Print Assumptions C110_same_lengths.
(** so a model given as a python file cannot be run: its path is taken for a parameter *)
Theorem C110_python_file_refuted : forall C (import : string -> string -> result C) lc li d m path x dc info semi cat (f : R) inj t0 t1 n,
  assoc "models" d = Ok (YMap m) -> assoc "python_file" m = Ok (YStr path) -> snd (load_model_from_python_file import path) = Ok x -> assoc "data" d = Ok (YMap dc) ->
  assoc "catalog_summary_json" dc = Ok info -> assoc "seminanalytic_injs" dc = Ok semi -> lc info false = Ok cat -> ct_far cat = Fin f -> f <> 0 -> li (ct_injfile cat) (Fin (1 / f)) false semi = Ok inj ->
  assoc "total_generated" inj = Ok t0 -> assoc "analysis_time" inj = Ok t1 ->
  (forall ev, In ev (ct_names cat) -> exists e, assoc ev (ct_pe cat) = Ok e /\ (forall q v, assoc q e = Ok v -> length v = n) /\ exists m, assoc "mass_1" e = Ok m) ->
  ct_names cat <> [] -> (forall ev v, ~ samples_are cat ev "file_path" v) -> run_inference import lc li (YMap d) = Err KeyError.
Proof. exact @run_python_file. Qed.
Print Assumptions C110_python_file_refuted.

(** two events with two samples each of a mass, a mass ratio and the prior *)
Definition ev_of (a b : R) : dict (list num) := [("mass_1", [Fin a; Fin b]); ("mass_ratio", [Fin 1; Fin (1/2)]); ("prior", [Fin 1; Fin 1])].
Definition cat2 : catalog := Catalog [("A", ev_of 30 31); ("B", ev_of 20 21)] ["A"; "B"] "inj.h5" (Fin 2).
Definition inj2 : dict ival := [("mass_1", IArray [Fin 5]); ("total_generated", IScalar (Fin 100)); ("mass_ratio", IArray [Fin 1]); ("prior", IArray [Fin 1]); ("analysis_time", IScalar (Fin 1))].
Example C110_case : rectangular cat2 ["mass_1"; "mass_ratio"] 2 /\ has_injections ["mass_1"; "mass_ratio"] inj2 /\ spin_model ["mass_1"; "mass_ratio"] false /\
  (forall ev v, ~ samples_are cat2 ev "file_path" v) /\
  (exists r, run_inference (fun _ _ => Ok tt) (fun _ _ => Ok cat2) (fun _ _ _ _ => Ok inj2)
    (YMap [("models", YMap [("mass_1", YMap [("model", YStr "a.M"); ("hyper_params", YMap [])]); ("mass_ratio", YMap [("model", YStr "a.Q"); ("hyper_params", YMap [])])]);
           ("data", YMap [("catalog_summary_json", YStr "c"); ("seminanalytic_injs", YBool false)]);
           ("sampler", YMap [("kernel", YStr "NUTS"); ("kernel_kwargs", YMap []); ("mcmc_kwargs", YMap [])])]) = Ok ("NUTS", r)).
Proof.
  assert (SA : forall ev p, In ev ["A"; "B"] -> In p ["mass_1"; "mass_ratio"; "prior"] -> exists v, samples_are cat2 ev p v /\ length v = 2%nat).
  { intros ev p [<-|[<-|[]]] [<-|[<-|[<-|[]]]]; eexists; (split; [eexists; split; reflexivity|reflexivity]). }
  split; [split; [discriminate|]; intros ev p I P; apply SA; [exact I|cbn in *; intuition]|].
  split; [intros p [->|[<-|[<-|[]]]]; (split; [discriminate|split; [discriminate|eexists; reflexivity]])|].
  split; [unfold spin_model; cbn; intuition discriminate|].
  split.
  - intros ev v (e & E1 & E2). cbn [ct_pe cat2 assoc] in E1. destruct (String.eqb ev "A"); [injection E1 as <-; discriminate|]. destruct (String.eqb ev "B"); [injection E1 as <-; discriminate|discriminate].
  - destruct (setup_ok (fun _ _ => Ok cat2) (fun _ _ _ _ => Ok inj2) [("catalog_summary_json", YStr "c"); ("seminanalytic_injs", YBool false)] (YStr "c") (YBool false) ["mass_1"; "mass_ratio"] false cat2 2 inj2 (IScalar (Fin 100)) (IScalar (Fin 1)) 2) as (r & E & _); try reflexivity; try (intros X; lra).
    + unfold spin_model; cbn; intuition discriminate.
    + split; [discriminate|]; intros ev p I P; apply SA; [exact I|cbn in *; intuition].
    + intros p [->|[<-|[<-|[]]]]; (split; [discriminate|split; [discriminate|eexists; reflexivity]]).
    + exists r. unfold run_inference. cbn -[setup]. unfold pop. cbn -[setup]. rewrite E. reflexivity.
Qed.
