(** Property theorems C66-C72, C96, C99 (gwinferno/pipeline: construct_hierarchical_model, parser.py, utils.py). *)
From Coq Require Import Lia Lra.
From Verif Require Import PConstruct PParser PParserKeys PUtils PExport SpecUtils PEnd PShare SpecEnd.
From Verif Require Import PParserAccept SpecAccept.
Open Scope R_scope.
Open Scope string_scope.
Open Scope list_scope.

(** ** C66: the configured population is evaluated.  Proved for configurations without shared parameters, in every
    state the closure can be in (the state [s] is arbitrary). *)
Theorem C66_weights_partial : forall (C D : Type) (w : world C D) fl rv dr models priors grid samps injs E n ni vals sites pops zd vt ninj nobs tobs s,
  is_dict models -> is_dict priors ->
  priors_give w rv priors vals sites ->
  population_is w vals grid models pops ->
  Forall (has_table E n samps) ("prior" :: keys models) -> Forall (has_column ni injs) ("prior" :: keys models) ->
  assoc "redshift" pops = Ok zd -> w_norm w zd = Some vt ->
  c_sites (fst (call_model w fl models priors grid rv dr samps injs ninj nobs tobs s)) = sites /\
  snd (call_model w fl models priors grid rv dr samps injs ninj nobs tobs s) =
    hierarchical_likelihood {| total_inj := ninj; Nobs := nobs; Tobs := tobs; surveyed_hypervolume := Some vt;
         categorical := false; marginal_qs := false; indv_weights := []; reconstruct_rate := true;
         marginalize_selection := f_marg fl; min_neff_cut := f_neff fl; max_variance_cut := f_var fl;
         posterior_predictive_check := f_ppc fl; param_names := Some (map fst models);
         pedata := Some samps; injdata := Some injs; m2min := Fin 2; m1min := Fin 2; mmax := Fin 100; logw := true |} dr
      (PEOne (weights_of_samples w pops samps E n)) (weights_of_injections w pops injs ni).
Proof. intros C D. exact call_model_ok. Qed.
Print Assumptions C66_weights_partial.

Theorem C66_missing_hyperparameter_raises : forall (C D : Type) (models : dict (model_entry C)) priors (w : world C D) fl rv dr grid samps injs Ninj Nobs Tobs s k e key,
  is_dict models -> reachable models priors s -> In (k, e) models -> looked_up k e key -> ~ In key (keys priors) ->
  raises (snd (call_model w fl models priors grid rv dr samps injs Ninj Nobs Tobs s)).
Proof. intros C D. exact missing_hyper_raises. Qed.
Print Assumptions C66_missing_hyperparameter_raises.

Theorem C66_unknown_entry_raises : forall (C D : Type) (models : dict (model_entry C)) priors (w : world C D) fl rv dr grid samps injs Ninj Nobs Tobs s k y,
  is_dict models -> reachable models priors s -> In (k, EOther y) models ->
  raises (snd (call_model w fl models priors grid rv dr samps injs Ninj Nobs Tobs s)).
Proof. intros C D. exact unknown_raises. Qed.
Print Assumptions C66_unknown_entry_raises.

Theorem C66_missing_data_raises : forall (C D : Type) (models : dict (model_entry C)) priors (w : world C D) fl rv dr grid samps injs Ninj Nobs Tobs s k,
  is_dict models -> reachable models priors s -> In k ("prior" :: keys models) -> ~ In k (keys injs) \/ ~ In k (keys samps) ->
  raises (snd (call_model w fl models priors grid rv dr samps injs Ninj Nobs Tobs s)).
Proof. intros C D. exact missing_data_raises. Qed.
Print Assumptions C66_missing_data_raises.

(** a parameter that shares its partner's model never gets one: every call raises, in every history *)
Theorem C66_shared_parameter_refuted : forall (C D : Type) (models : dict (model_entry C)) priors (w : world C D) fl rv dr grid samps injs Ninj Nobs Tobs s k v,
  is_dict models -> reachable models priors s -> In (k, EIid v) models ->
  raises (snd (call_model w fl models priors grid rv dr samps injs Ninj Nobs Tobs s)).
Proof. intros C D. exact shared_raises. Qed.
Print Assumptions C66_shared_parameter_refuted.

(** a concrete world: classes are names, a distribution is its log density and its norm *)
Definition w66 : world string ((num -> num) * option num) :=
  World (fun _ _ => Ok (fun _ => Fin 0, None))
        (fun c kw => if String.eqb c "Z" then Ok (fun z => nneg z, Some (Fin 7))
                     else match assoc "alpha" kw with Ok (HDraw (Scal a)) => Ok (fun m => nmul a m, None) | _ => Err TypeError end)
        (fun _ _ _ => Err TypeError) fst snd.
Definition models66 : dict (model_entry string) := [("mass_1", ESimple "P" ("alpha" :: nil)); ("redshift", ESimple "Z" ("maximum" :: nil))].
Definition priors66 : dict (prior_entry string) := [("mass_1_alpha", EPrior "N" []); ("redshift_maximum", EConst (PRaw (YNum (Fin 2))))].
Definition rv66 : string -> sval := fun _ => Scal (Fin 3).
Definition pops66 : dict ((num -> num) * option num) := [("mass_1", (fun m => nmul (Fin 3) m, None)); ("redshift", (fun z => nneg z, Some (Fin 7)))].
Definition samps66 : dict arr2 := map (fun k => (k, Arr2 1 ((Fin 1 :: nil) :: nil))) ["mass_1"; "redshift"; "prior"].
Definition injs66 : dict (list num) := map (fun k => (k, [Fin 1; Fin 2])) ["mass_1"; "redshift"; "prior"].
Example C66_meets_hypotheses :
  is_dict models66 /\ is_dict priors66 /\
  priors_give w66 rv66 priors66 [("mass_1_alpha", HDraw (Scal (Fin 3))); ("redshift_maximum", HConst (PRaw (YNum (Fin 2))))]
     (("mass_1_alpha", (fun _ => Fin 0, None)) :: nil) /\
  population_is w66 [("mass_1_alpha", HDraw (Scal (Fin 3))); ("redshift_maximum", HConst (PRaw (YNum (Fin 2))))] [] models66 pops66 /\
  Forall (has_table 1 1 samps66) ("prior" :: keys models66) /\ Forall (has_column 2 injs66) ("prior" :: keys models66) /\
  (exists z, assoc "redshift" pops66 = Ok z /\ w_norm w66 z = Some (Fin 7)) /\
  (exists g s, construct_hierarchical_model (D := (num -> num) * option num) models66 priors66 = Ok (g, s)).
Proof.
  repeat split.
  - unfold is_dict; cbn; repeat constructor; cbn; intuition discriminate.
  - unfold is_dict; cbn; repeat constructor; cbn; intuition discriminate.
  - change (("mass_1_alpha", (fun _ : num => Fin 0, @None num)) :: nil) with ((("mass_1_alpha", (fun _ : num => Fin 0, @None num)) :: nil) ++ [] ++ []).
    constructor; [|constructor; [|constructor]]; cbn; eauto.
  - constructor; [|constructor; [|constructor]]; cbn; (split; [reflexivity|]).
    + exists (("alpha", HDraw (Scal (Fin 3))) :: nil). split; [|reflexivity]. split; [repeat constructor; easy|]. repeat constructor.
    + exists (("maximum", HConst (PRaw (YNum (Fin 2)))) :: nil). split; [split; [repeat constructor; easy | repeat constructor]|].
      split; [intuition discriminate | reflexivity].
  - repeat constructor; (eexists; split; [reflexivity|]; repeat split; repeat constructor).
  - repeat constructor; (eexists; split; reflexivity).
  - eexists. split; reflexivity.
  - assert (Hz : z_grid priors66 = Ok (nlinspace (Fin (/ 10 ^ 9)) (Fin 2) 1000)) by (cbv -[nlinspace Rdefinitions.Rinv pow]; reflexivity).
    exists (nlinspace (Fin (/ 10 ^ 9)) (Fin 2) 1000). eexists. unfold construct_hierarchical_model.
    replace (mem "redshift" models66) with true by reflexivity. rewrite Hz. cbn [rbind]. reflexivity.
Qed.
(** the second parameter shares the first one's model: a reachable state exists *)
Example C66_shared_reachable : exists s : cstate ((num -> num) * option num),
  reachable [("a_1", ESimple "P" ("alpha" :: nil)); ("a_2", EIid "a_1")] [("a_1_alpha", @EPrior string "N" [])] s.
Proof. eexists. eapply (reach_new _ _ []). reflexivity. Qed.

(** ** C67: exactly the declared hyper-parameters are recorded, into any reader (fresh or already used) *)
Theorem C67_declared_hyperparameters : forall (C : Type) (import : string -> string -> result C) yml r r',
  wf yml -> ~ has "python_file" yml -> construct_model_and_prior_dicts import yml r = Ok r' ->
  r_sampling r' = r_sampling r ++ map fst (filter (fun kv => has_prior (snd kv)) (declared yml)) /\
  (forall k, In k (keys (r_priors r')) <->
     In k (keys (r_priors r)) \/ exists decl, In (k, decl) (declared yml) /\ (has_prior decl = true \/ has_value decl = true)).
Proof. intros C. exact reader_records. Qed.
Print Assumptions C67_declared_hyperparameters.

(** each declaration's prior or value is stored under its key, as long as no two declarations share a key (see C68) *)
Theorem C67_entries : forall (C : Type) (import : string -> string -> result C) yml r r' k decl,
  wf yml -> ~ has "python_file" yml -> NoDup (map fst (declared yml)) ->
  construct_model_and_prior_dicts import yml r = Ok r' -> In (k, decl) (declared yml) -> has_prior decl = true \/ has_value decl = true ->
  exists e, assoc k (r_priors r') = Ok e /\ prior_entry_for import decl e.
Proof. intros C. exact reader_values. Qed.
Print Assumptions C67_entries.

(** a list that is no rectangular array of numbers, as a value or as a prior's parameter, is refused *)
Theorem C67_ragged_lists_refused : forall (C : Type) (import : string -> string -> result C) yml r k decl l,
  wf yml -> ~ has "python_file" yml -> NoDup (map fst (declared yml)) -> In (k, decl) (declared yml) ->
  (has_prior decl = false /\ has_value decl = true /\ sub "value" decl = YList l \/
   has_prior decl = true /\ In (YList l) (map snd (entries (sub "prior_params" decl)))) ->
  (forall s, ~ has_shape (YList l) s) -> exists e, construct_model_and_prior_dicts import yml r = Err e.
Proof. intros C. exact reader_ragged. Qed.
Print Assumptions C67_ragged_lists_refused.
Definition ragged67 : yaml := YMap (("q", YMap [("model", YStr "m.P"); ("hyper_params",
  YMap (("b", YMap (("value", YList [YNum (Fin 1); YList (YNum (Fin 2) :: nil)]) :: nil)) :: nil))]) :: nil).
Example C67_ragged_case : wf ragged67 /\ ~ has "python_file" ragged67 /\ map fst (declared ragged67) = "q_b" :: nil /\
  (forall s, ~ has_shape (YList [YNum (Fin 1); YList (YNum (Fin 2) :: nil)]) s) /\ (forall s, ~ has_shape (YList [YNum (Fin 1); YStr "a"]) s) /\
  has_shape (YList [YList [YNum (Fin 1); YNum (Fin 2)]; YList [YNum (Fin 1); YBool true]]) [2; 2]%nat.
Proof.
  split; [|split; [|split; [|split; [|split]]]].
  - cbn. repeat (split || constructor); cbn; intuition discriminate.
  - unfold has. cbn. intuition discriminate.
  - reflexivity.
  - intros s H%has_yshape. discriminate.
  - intros s H%has_yshape. discriminate.
  - apply yshape_has. reflexivity.
Qed.

Theorem C67_models : forall (C : Type) (import : string -> string -> result C) yml r r' param subd,
  wf yml -> ~ has "python_file" yml -> (forall k s, In (k, s) (entries yml) -> ~ shares s) ->
  construct_model_and_prior_dicts import yml r = Ok r' -> In (param, subd) (entries yml) ->
  exists e, assoc param (r_models r') = Ok e /\ model_entry_for import subd e.
Proof. intros C. exact reader_models. Qed.
Print Assumptions C67_models.

(** a parameter declared to share another's model gets a reference to that parameter, which keeps its own model *)
Theorem C67_shared_model : forall (C : Type) (import : string -> string -> result C) yml r r' l1 param subd l2,
  wf yml -> ~ has "python_file" yml -> construct_model_and_prior_dicts import yml r = Ok r' ->
  entries yml = l1 ++ (param, subd) :: l2 ->
  (~ In param (flat_map modelled_by l2) -> shared_with subd <> Some param ->
     exists e, assoc param (r_models r') = Ok e /\ model_entry_for import subd e) /\
  (forall s, shared_with subd = Some s -> ~ In s (flat_map modelled_by l2) -> assoc s (r_models r') = Ok (EIid param)).
Proof. intros C. exact reader_shared. Qed.
Print Assumptions C67_shared_model.
Theorem C67_no_other_models : forall (C : Type) (import : string -> string -> result C) yml r r' k,
  wf yml -> ~ has "python_file" yml -> construct_model_and_prior_dicts import yml r = Ok r' ->
  ~ In k (flat_map modelled_by (entries yml)) -> assoc k (r_models r') = assoc k (r_models r).
Proof. intros C. exact reader_others. Qed.
Print Assumptions C67_no_other_models.
Definition shared67 : yaml := YMap [("a_1", YMap [("model", YStr "m.P"); ("hyper_params", YMap (("alpha", YMap (("value", YNum (Fin 1)) :: nil)) :: nil));
  ("iid", YMap (("shared_parameter", YStr "a_2") :: nil))]); ("redshift", YMap [("model", YStr "m.Z"); ("hyper_params", YMap nil)])].
Example C67_shared_case : wf shared67 /\ ~ has "python_file" shared67 /\
  (exists r', construct_model_and_prior_dicts (fun m f => Ok f) shared67 new_reader = Ok r' /\ assoc "a_2" (r_models r') = Ok (EIid "a_1")) /\
  (exists l1 subd l2, entries shared67 = l1 ++ ("a_1", subd) :: l2 /\ shared_with subd = Some "a_2" /\
     ~ In "a_2" (flat_map modelled_by l2) /\ ~ In "a_1" (flat_map modelled_by l2)).
Proof.
  split; [|split; [|split]].
  - cbn. repeat (split || constructor); cbn; intuition discriminate.
  - unfold has. cbn. intuition discriminate.
  - eexists. split; reflexivity.
  - exists []. do 2 eexists. split; [reflexivity|]. split; [reflexivity|]. cbn. intuition discriminate.
Qed.

(** every key a model looks up is present when every hyper-parameter is declared with a prior and its parameters, or a value *)
Theorem C67_lookups_partial : forall (C : Type) (import : string -> string -> result C) yml r r',
  wf yml -> ~ has "python_file" yml -> construct_model_and_prior_dicts import yml r = Ok r' ->
  (forall k decl, In (k, decl) (declared yml) -> has_prior decl = true \/ has_value decl = true) ->
  (forall k e key, In (k, e) (r_models r) -> looked_up k e key -> In key (keys (r_priors r))) ->
  forall k e key, In (k, e) (r_models r') -> looked_up k e key -> In key (keys (r_priors r')).
Proof. intros C. exact reader_complete. Qed.
Print Assumptions C67_lookups_partial.

(** otherwise the reader accepts the configuration and the key is missing *)
Definition yml67 : yaml := YMap (("mass_1", YMap [("model", YStr "m.P"); ("hyper_params", YMap [("alpha", YMap (("prior", YStr "n.N") :: nil))
  ; ("beta", YMap (("value", YNum (Fin 1)) :: nil))])]) :: nil).
Theorem C67_lookups_refuted : exists (import : string -> string -> result string) r' e,
  wf yml67 /\ construct_model_and_prior_dicts import yml67 new_reader = Ok r' /\
  In ("mass_1", e) (r_models r') /\ looked_up "mass_1" e "mass_1_alpha" /\ ~ In "mass_1_alpha" (keys (r_priors r')).
Proof.
  exists (fun m f => Ok f). eexists. eexists. split; [|split; [reflexivity|split; [left; reflexivity|split]]].
  - cbn. repeat (split || constructor); cbn; intuition discriminate.
  - cbn. exists "alpha". auto.
  - cbn. intuition discriminate.
Qed.
Print Assumptions C67_lookups_refuted.

(** a simple model and a two-component mixture *)
Definition decl67 : yaml := YMap [("prior", YStr "n.N"); ("prior_params", YMap (("concentration", YList [YNum (Fin 1); YNum (Fin 1)]) :: nil))].
Definition comp67 : yaml := YMap [("model", YStr "m.G"); ("hyper_params", YMap (("mu", decl67) :: nil))].
Definition full67 : yaml := YMap [("redshift", YMap [("model", YStr "m.Z"); ("hyper_params", YMap (("lamb", decl67) :: ("maximum", YMap (("value", YNum (Fin 2)) :: nil)) :: nil))]);
  ("mass_1", YMap [("model", YStr "m.MixtureGeneral"); ("mixture_dist", YMap [("model", YStr "n.C"); ("hyper_params", YMap (("probs", decl67) :: nil))]);
                   ("component_1", comp67); ("component_2", comp67)])].
(** a configuration whose classes can be imported and whose parts are all there is read, by a fresh or used reader *)
Theorem C67_good_configurations_read : forall (C : Type) (import : string -> string -> result C) yml r,
  wf yml -> (exists d, yml = YMap d) -> ~ has "python_file" yml -> Forall (fun kv => good_parameter import (snd kv)) (entries yml) ->
  exists r', construct_model_and_prior_dicts import yml r = Ok r'.
Proof. intros C. exact reader_accepts. Qed.
Print Assumptions C67_good_configurations_read.
Example C67_good_case : Forall (fun kv => good_parameter (fun m f => Ok f) (snd kv)) (entries full67).
Proof.
  assert (N : forall m, (exists s c, m = YStr s /\ load_dist_from_string (fun m f => Ok f) s = @Ok string c) -> named (fun m f => @Ok string f) m) by auto.
  assert (D : good_declaration (fun m f => @Ok string f) decl67).
  { split; [eexists; reflexivity|]. split; [|discriminate]. intros _. split; [apply N; do 2 eexists; split; reflexivity|]. eexists. split; [reflexivity|]. constructor; [|constructor]. cbn [snd storable]. exists (2%nat :: nil). apply yshape_has. reflexivity. }
  assert (V : good_declaration (fun m f => @Ok string f) (YMap (("value", YNum (Fin 2)) :: nil))).
  { split; [eexists; reflexivity|]. split; [discriminate|]. intros _. exact I. }
  constructor; [|constructor; [|constructor]].
  - split; [split; [apply N; do 2 eexists; split; reflexivity|]|].
    + eexists. split; [reflexivity|]. apply Forall_cons; [exact D|apply Forall_cons; [exact V|apply Forall_nil]].
    + intros H. cbn in H. intuition discriminate.
  - assert (Gc : good_model (fun m f => @Ok string f) comp67) by (split; [apply N; do 2 eexists; split; reflexivity|]; eexists; split; [reflexivity|]; apply Forall_cons; [exact D|apply Forall_nil]).
    cbn [snd]. unfold good_parameter. split; [apply N; do 2 eexists; split; reflexivity|]. split; [split; [apply N; do 2 eexists; split; reflexivity|]; eexists; split; [reflexivity|]; apply Forall_cons; [exact D|apply Forall_nil]|].
    split; [apply (Nat.leb_le 1 2); reflexivity|]. split.
    + intros i [H1 H2]. change (n_components _) with 2%nat in H2. destruct i as [|[|[|i]]]; [lia|exact Gc|exact Gc|lia].
    + intros H. cbn in H. intuition discriminate.
Qed.
Example C67_meets_hypotheses : wf full67 /\ ~ has "python_file" full67 /\ NoDup (map fst (declared full67)) /\
  map fst (declared full67) = ["redshift_lamb"; "redshift_maximum"; "mass_1_mixture_dist_probs"; "mass_1_component_1_mu"; "mass_1_component_2_mu"] /\
  (exists r', construct_model_and_prior_dicts (fun m f => Ok f) full67 new_reader = Ok r' /\
     r_sampling r' = ["redshift_lamb"; "mass_1_mixture_dist_probs"; "mass_1_component_1_mu"; "mass_1_component_2_mu"]) /\
  (forall k s, In (k, s) (entries full67) -> ~ shares s) /\
  (forall k decl, In (k, decl) (declared full67) -> has_prior decl = true \/ has_value decl = true).
Proof.
  split; [|split; [|split; [|split; [|split; [|split]]]]].
  - cbn. repeat (split || constructor); cbn; intuition discriminate.
  - unfold has. cbn. intuition discriminate.
  - cbn. repeat constructor; cbn; intuition discriminate.
  - reflexivity.
  - eexists. split; reflexivity.
  - intros k s [[= <- <-]|[[= <- <-]|[]]]; unfold shares, has; cbn; intuition discriminate.
  - intros k d H. cbn in H. repeat destruct H as [[= <- <-]|H]; try easy; cbn; auto.
Qed.

(** ** C68: hyper-parameter names.  Different declarations can get the same key, and one is lost *)
Definition yml68 : yaml := YMap [("a", YMap [("model", YStr "m.P"); ("hyper_params", YMap (("1_alpha", decl67) :: nil))]);
                                 ("a_1", YMap [("model", YStr "m.P"); ("hyper_params", YMap (("alpha", YMap (("value", YNum (Fin 4)) :: nil)) :: nil))])].
Theorem C68_keys_refuted : exists (import : string -> string -> result string) r',
  wf yml68 /\ construct_model_and_prior_dicts import yml68 new_reader = Ok r' /\
  map fst (declared yml68) = ["a_1_alpha"; "a_1_alpha"] /\
  r_priors r' = ("a_1_alpha", EConst (PRaw (YNum (Fin 4)))) :: nil /\ r_sampling r' = "a_1_alpha" :: nil.
Proof.
  exists (fun m f => Ok f). eexists. split; [|split; [reflexivity|split; [reflexivity|split; reflexivity]]].
  cbn. repeat (split || constructor); cbn; intuition discriminate.
Qed.
Print Assumptions C68_keys_refuted.
(** unless no parameter's name extends another's by an underscore and more *)
Theorem C68_keys_partial : forall yml, wf yml ->
  (forall p q, In p (map fst (entries yml)) -> In q (map fst (entries yml)) -> ~ extends p q) ->
  NoDup (map fst (declared yml)).
Proof. exact declared_distinct. Qed.
Print Assumptions C68_keys_partial.
Example C68_meets_hypotheses : forall p q, In p (map fst (entries full67)) -> In q (map fst (entries full67)) -> ~ extends p q.
Proof. intros p q [<-|[<-|[]]] [<-|[<-|[]]] [x E]; discriminate. Qed.

(** ** C69: dotted paths and python files *)
Theorem C69_dotted_paths : forall (C : Type) (import : string -> string -> result C) m f,
  m <> "" -> ~ (exists m', m = String "." m') -> free_of "." f ->
  load_dist_from_string import (m ++ "." ++ f)%string = import m f.
Proof. intros C. exact dotted_path. Qed.
Print Assumptions C69_dotted_paths.
Theorem C69_undotted_names_raise : forall (C : Type) (import : string -> string -> result C) f,
  free_of "." f -> load_dist_from_string import f = Err ValueError.
Proof. intros C. exact undotted_path. Qed.
Print Assumptions C69_undotted_names_raise.
Theorem C69_python_file_partial : forall (C : Type) (import : string -> string -> result C) dir base,
  free_of "/" base -> base <> "" -> ~ (exists b, base = String "." b) ->
  occurs_only_after ("/" ++ base ++ ".py")%string dir (dir ++ "/" ++ base ++ ".py")%string ->
  occurs_only_after ".py" base (base ++ ".py")%string ->
  load_model_from_python_file import (dir ++ "/" ++ base ++ ".py")%string = (dir, import base "model").
Proof. intros C. exact python_file. Qed.
Print Assumptions C69_python_file_partial.
(** a directory whose name begins with the file's name; a file name with .py twice; a file without a directory *)
Theorem C69_python_file_refuted : forall (C : Type) (import : string -> string -> result C),
  fst (load_model_from_python_file import "/data/m.pyx/m.py") = "/datax" /\
  snd (load_model_from_python_file import "/d/a.pyb.py") = import "ab" "model" /\
  fst (load_model_from_python_file import "model.py") = "model.py".
Proof. intros; repeat split. Qed.
Print Assumptions C69_python_file_refuted.
Example C69_meets_hypotheses : free_of "." "Powerlaw" /\ free_of "/" "model" /\ occurs_only_after ".py" "model" "model.py".
Proof.
  split; [|split]; try (unfold free_of; cbn; intuition discriminate).
  intros u v H. do 9 (destruct u as [|? u]; [cbn in H; first [discriminate H | congruence | reflexivity]|cbn in H; first [discriminate H | injection H as <- H]]).
Qed.

(** ** C70: ignored events *)
Theorem C70_events_dropped : forall f ignore, good_file f -> exists pe inj,
  load_pe_and_injections_as_dict f ignore = Ok (pe, inj, Constants (i_total f) (i_time f) (length (i_post f)), i_pe_params f) /\
  keys pe = i_pe_params f /\ keys inj = i_inj_params f /\
  (forall i k, nth_error (i_pe_params f) i = Some k -> assoc k pe = Ok (map (fun er => nth i (snd er) []) (remaining f ignore))) /\
  (forall i k, nth_error (i_inj_params f) i = Some k -> assoc k inj = Ok (nth i (i_inj f) [])).
Proof. exact load_drops. Qed.
Print Assumptions C70_events_dropped.
Theorem C70_number_of_events_partial : forall f ignore, good_file f -> (forall e, In e (i_events f) -> ~ ignored ignore e) ->
  exists pe inj k ps, load_pe_and_injections_as_dict f ignore = Ok (pe, inj, k, ps) /\ k_nobs k = length (remaining f ignore).
Proof. exact nobs_partial. Qed.
Print Assumptions C70_number_of_events_partial.
(** with an ignored event the count is one too large *)
Definition file70 : idata := IData ["GW1"; "GW2"] ("mass_1" :: nil) [(Fin 1 :: nil) :: nil; (Fin 2 :: nil) :: nil] [] [] (Fin 10) (Fin 1).
Theorem C70_number_of_events_refuted : exists pe inj k ps,
  good_file file70 /\ load_pe_and_injections_as_dict file70 (Some ("GW1" :: nil)) = Ok (pe, inj, k, ps) /\
  assoc "mass_1" pe = Ok ((Fin 2 :: nil) :: nil) /\ length (remaining file70 (Some ("GW1" :: nil))) = 1%nat /\ k_nobs k = 2%nat.
Proof. do 4 eexists. split; [|split; [reflexivity|split; [reflexivity|split; reflexivity]]]. repeat split; repeat constructor; cbn; easy. Qed.
Print Assumptions C70_number_of_events_refuted.

(** ** C71: prior helpers *)
Theorem C71_mass_prior : forall rv n k tm tq name sm sq dm dq, exists m q,
  length m = n /\ length q = k /\
  (let '(sites, r) := bspline_mass_prior rv (Some n) (Some k) (Some tm) (Some tq) name sm sq dm dq in
   r = Ok (TwoVecs m q) /\
   vectors sites = [("mass_cs" ++ suffix name, sm, m); ("q_cs" ++ suffix name, sq, q)]%string /\
   penalties sites = [("mass_smoothing_prior" ++ suffix name, apply_difference_prior m tm dm);
                      ("q_smoothing_prior" ++ suffix name, apply_difference_prior q tq dq)]%string) /\
  (let '(sites, r) := bspline_mass_prior rv (Some n) None (Some tm) (Some tq) name sm sq dm dq in
   r = Ok (OneVec m) /\ vectors sites = (("mass_cs" ++ suffix name)%string, sm, m) :: nil /\
   penalties sites = (("mass_smoothing_prior" ++ suffix name)%string, apply_difference_prior m tm dm) :: nil) /\
  (let '(sites, r) := bspline_mass_prior rv None (Some k) (Some tm) (Some tq) name sm sq dm dq in
   r = Ok (OneVec q) /\ vectors sites = (("q_cs" ++ suffix name)%string, sq, q) :: nil /\
   penalties sites = (("q_smoothing_prior" ++ suffix name)%string, apply_difference_prior q tq dq) :: nil) /\
  bspline_mass_prior rv None None (Some tm) (Some tq) name sm sq dm dq = ([], Err AssertionError).
Proof.
  intros. exists (vec rv ("mass_cs" ++ suffix name)%string n), (vec rv ("q_cs" ++ suffix name)%string k).
  rewrite !vec_length. repeat split.
Qed.
Print Assumptions C71_mass_prior.
Theorem C71_spin_prior : forall rv n k ta tt name sa st da dt,
  (exists a t, length a = n /\ length t = k /\
   let '(sites, r) := bspline_spin_prior rv (Some n) (Some k) (Some ta) (Some tt) name true sa st da dt in
   r = Ok [a; t] /\
   vectors sites = [("a_cs" ++ suffix name, sa, a); ("tilt_cs" ++ suffix name, st, t)]%string /\
   penalties sites = [("a_smoothing_prior" ++ suffix name, apply_difference_prior a ta da);
                      ("ct_smoothing_prior" ++ suffix name, apply_difference_prior t tt dt)]%string) /\
  (exists a1 a2 t1 t2, length a1 = n /\ length a2 = n /\ length t1 = k /\ length t2 = k /\
   let '(sites, r) := bspline_spin_prior rv (Some n) (Some k) (Some ta) (Some tt) name false sa st da dt in
   r = Ok [a1; t1; a2; t2] /\
   vectors sites = [("a1_cs" ++ suffix name, sa, a1); ("a2_cs" ++ suffix name, sa, a2);
                    ("tilt1_cs" ++ suffix name, st, t1); ("tilt2_cs" ++ suffix name, st, t2)]%string /\
   penalties sites = [("a1_smoothing_prior" ++ suffix name, apply_difference_prior a1 ta da);
                      ("a2_smoothing_prior" ++ suffix name, apply_difference_prior a2 ta da);
                      ("ct1_smoothing_prior" ++ suffix name, apply_difference_prior t1 tt dt);
                      ("ct2_smoothing_prior" ++ suffix name, apply_difference_prior t2 tt dt)]%string).
Proof.
  intros. split.
  - exists (vec rv ("a_cs" ++ suffix name)%string n), (vec rv ("tilt_cs" ++ suffix name)%string k). rewrite !vec_length. repeat split.
  - exists (vec rv ("a1_cs" ++ suffix name)%string n), (vec rv ("a2_cs" ++ suffix name)%string n),
      (vec rv ("tilt1_cs" ++ suffix name)%string k), (vec rv ("tilt2_cs" ++ suffix name)%string k). rewrite !vec_length. repeat split.
Qed.
Print Assumptions C71_spin_prior.
(** the first coefficient is pinned to zero and takes part in the penalty *)
Theorem C71_redshift_prior : forall rv n tz name sz dz, exists cs,
  length cs = n /\
  let '(sites, r) := bspline_redshift_prior rv (Some (S n)) (Some tz) name sz dz in
  r = Ok (Fin 0 :: cs) /\ vectors sites = (("z_cs" ++ suffix name)%string, sz, cs) :: nil /\
  penalties sites = (("z_smoothing_prior" ++ suffix name)%string, apply_difference_prior (Fin 0 :: cs) tz dz) :: nil.
Proof. intros. exists (vec rv ("z_cs" ++ suffix name)%string n). rewrite !vec_length. repeat split. Qed.
Print Assumptions C71_redshift_prior.
Example C71_values : fst (bspline_redshift_prior (fun _ i => Fin (INR i)) (Some 3%nat) (Some (Fin 2)) (Some "x") (Fin 1) 1) =
  [SNormal "z_cs_x" (Fin 1) [Fin (INR 0); Fin (INR 1)]; SFactor "z_smoothing_prior_x" (apply_difference_prior [Fin 0; Fin (INR 0); Fin (INR 1)] (Fin 2) 1)].
Proof. reflexivity. Qed.

(** ** C72: export *)
(** without sub-populations: everything is stored if the arrays fit, and ValueError otherwise *)
Theorem C72_pdf_export_partial : forall pdfs grid n, is_dict pdfs -> is_dict grid -> ~ In "draw" (keys pdfs) -> ~ In "draw" (keys grid) ->
  (exportable n grid pdfs -> exists vars, pdf_dict_to_xarray pdfs grid n None = (pdfs, Ok (vars, coords_of grid n)) /\ length vars = length pdfs /\
    forall key a, In (key, OnePdf a) pdfs -> assoc (key ++ "_pdfs")%string vars = Ok (["draw"; key], Some a)) /\
  (~ exportable n grid pdfs -> pdf_dict_to_xarray pdfs grid n None = (pdfs, Err ValueError)).
Proof. exact export_exactly. Qed.
Print Assumptions C72_pdf_export_partial.
Example C72_export_cases : let curve := OnePdf (Arr2 2 ([Fin 1; Fin 2] :: nil)) in let grid : dict (list num) := ("q", [Fin 0; Fin 1]) :: nil in
  exportable 1 grid (("q", curve) :: nil) /\ ~ exportable 2 grid (("q", curve) :: nil).
Proof.
  intros curve grid. split.
  - intros key v [E|[]]. injection E as <- <-. eexists. split; [reflexivity|]. split; [reflexivity|]. intros g E. injection E as <-. reflexivity.
  - intros H. destruct (H "q" curve (or_introl eq_refl)) as (a & E & L & _). injection E as <-. discriminate L.
Qed.
(** with sub-populations: every parameter but redshift is exported for every sub-population; the redshift array is never
    exported and is removed from the caller's dictionary *)
Theorem C72_redshift_dropped_refuted : forall pdfs grid n names,
  is_dict pdfs -> is_dict grid -> ~ In "draw" (keys grid) -> In "redshift" (keys pdfs) ->
  (forall nm nm' key key' , In nm names -> In nm' names -> In key (keys pdfs) -> In key' (keys pdfs) ->
     (nm ++ "_" ++ key = nm' ++ "_" ++ key')%string -> nm = nm' /\ key = key') -> NoDup names ->
  (forall key v, In (key, v) pdfs -> key <> "redshift" -> exists l, v = PerPop l /\ length l = length names /\ key <> "draw" /\ Forall (fits n grid key) l) ->
  exists vars, pdf_dict_to_xarray pdfs grid n (Some names) = (del "redshift" pdfs, Ok (vars, coords_of grid n)) /\
    (forall j nm key l a, nth_error names j = Some nm -> In (key, PerPop l) pdfs -> key <> "redshift" -> nth_error l j = Some a ->
       assoc (nm ++ "_" ++ key ++ "_pdfs")%string vars = Ok (["draw"; key], Some a)) /\
    (forall name v, In (name, v) vars -> exists nm key, In nm names /\ In key (keys pdfs) /\ key <> "redshift" /\ name = (nm ++ "_" ++ key ++ "_pdfs")%string).
Proof. exact pdf_export_subpops. Qed.
Print Assumptions C72_redshift_dropped_refuted.
Example C72_meets_hypotheses : exists vars,
  pdf_dict_to_xarray [("q", PerPop ((Arr2 1 ((Fin 5 :: nil) :: nil)) :: nil)); ("redshift", OnePdf (Arr2 1 ((Fin 6 :: nil) :: nil)))]
    (("q", Fin 0 :: nil) :: nil) 1 (Some ("bbh" :: nil)) =
  (("q", PerPop ((Arr2 1 ((Fin 5 :: nil) :: nil)) :: nil)) :: nil, Ok (vars, coords_of (("q", Fin 0 :: nil) :: nil) 1)) /\
  keys vars = "bbh_q_pdfs" :: nil.
Proof. eexists. split; reflexivity. Qed.
Theorem C72_posterior_export_partial : forall posteriors n, is_dict posteriors ->
  (forall k v, In (k, v) posteriors -> exists a rest, v = Raw a /\ nd_shape a = n :: rest) ->
  exists d, snd (posterior_dict_to_xarray posteriors) = Ok d /\ keys d = keys posteriors /\
    forall k a, In (k, Raw a) posteriors -> assoc k d = Ok (Wrapped (dims_for k (length (nd_shape a) - 1)) a).
Proof. exact posterior_export. Qed.
Print Assumptions C72_posterior_export_partial.
(** but none of the caller's arrays stays in the caller's dictionary *)
Theorem C72_posterior_export_mutates_refuted : forall posteriors, posteriors <> [] ->
  (forall k v, In (k, v) posteriors -> exists a, v = Raw a /\ nd_shape a <> []) ->
  forall k v, In (k, v) (fst (posterior_dict_to_xarray posteriors)) -> exists dims a, v = Wrapped dims a.
Proof. exact posterior_export_mutates. Qed.
Print Assumptions C72_posterior_export_mutates_refuted.
Example C72_posterior_case : posterior_dict_to_xarray (("x", Raw (NDArray [2; 1]%nat [Fin 1; Fin 2])) :: nil) =
  let d := ("x", Wrapped ["draw"; "x_dim2"] (NDArray [2; 1]%nat [Fin 1; Fin 2])) :: nil in (d, Ok d).
Proof. reflexivity. Qed.

(** ** C96: the sections of a configuration file *)
Theorem C96_sections : forall (C : Type) (import : string -> string -> result C) d r p, NoDup (map fst d) -> parse import (YMap d) r = Ok p ->
  (exists m, In ("models", m) d /\ construct_model_and_prior_dicts import m r = Ok (p_reader p)) /\
  (forall k dflt v, In (k, dflt, v) [("label", YStr "label", p_label p); ("outdir", YStr "./", p_outdir p); ("data", YMap [], p_data p);
                                     ("sampler", YMap [], p_sampler p); ("likelihood", YMap [], p_likelihood p)] ->
     In (k, v) d \/ (~ In k (map fst d) /\ v = dflt)).
Proof. intros C. exact sections. Qed.
Print Assumptions C96_sections.
Theorem C96_no_models_section_raises : forall (C : Type) (import : string -> string -> result C) d r,
  ~ In "models" (map fst d) -> parse import (YMap d) r = Err KeyError.
Proof. intros C. exact no_models. Qed.
Print Assumptions C96_no_models_section_raises.
(** a models section that names a python file only records its path *)
Theorem C96_python_file : forall (C : Type) (import : string -> string -> result C) yml r path,
  has "python_file" yml -> sub "python_file" yml = YStr path ->
  exists r', construct_model_and_prior_dicts import yml r = Ok r' /\ assoc "file_path" (r_models r') = Ok (EIid path) /\
    (forall k, k <> "file_path" -> assoc k (r_models r') = assoc k (r_models r)) /\ r_priors r' = r_priors r /\ r_sampling r' = r_sampling r.
Proof. intros C. exact python_file_only. Qed.
Print Assumptions C96_python_file.
Example C96_case : exists p, parse (fun m f => Ok f) (YMap [("label", YStr "run1"); ("models", full67); ("sampler", YMap (("chains", YNum (Fin 4)) :: nil))]) new_reader = Ok p /\
  p_label p = YStr "run1" /\ p_outdir p = YStr "./" /\ p_sampler p = YMap (("chains", YNum (Fin 4)) :: nil) /\ p_likelihood p = YMap [].
Proof. eexists. split; [reflexivity|]. repeat split. Qed.

(** ** C99: from the configuration file to the likelihood.  Whatever the reader's dictionaries look like inside, the model built from
    them evaluates the population the document describes, samples exactly the declared priors in order of declaration, and
    passes the data on, in the first call and in every later one *)
Theorem C99_configuration_to_likelihood : forall (C D : Type) (import : string -> string -> result C) (w : world C D)
    fl rv dr doc p zmax decl samps injs E n ni vals sites pops zd vt ninj nobs tobs,
  let yml := sub "models" doc in
  let grid := nlinspace (Fin (/ 10 ^ 9)) zmax 1000 in
  wf doc -> ~ has "python_file" yml -> (forall k s, In (k, s) (entries yml) -> ~ shares s) -> NoDup (map fst (declared yml)) ->
  parse import doc new_reader = Ok p ->
  has "redshift" yml -> In ("redshift_maximum", decl) (declared yml) -> has_value decl = true -> sub "value" decl = YNum zmax ->
  values_of import w rv (filter (fun kv => has_prior (snd kv) || has_value (snd kv))%bool (declared yml)) vals sites ->
  Forall2 (fun ks kd => fst ks = fst kd /\ model_of import w vals grid (fst ks) (snd ks) (snd kd)) (entries yml) pops ->
  Forall (has_table E n samps) ("prior" :: map fst (entries yml)) -> Forall (has_column ni injs) ("prior" :: map fst (entries yml)) ->
  assoc "redshift" pops = Ok zd -> w_norm w zd = Some vt ->
  exists s0 : cstate D, construct_hierarchical_model (r_models (p_reader p)) (r_priors (p_reader p)) = Ok (grid, s0) /\
  r_sampling (p_reader p) = map fst sites /\
  forall s, reachable (r_models (p_reader p)) (r_priors (p_reader p)) s ->
    let out := call_model w fl (r_models (p_reader p)) (r_priors (p_reader p)) grid rv dr samps injs ninj nobs tobs s in
    c_sites (fst out) = sites /\
    snd out = hierarchical_likelihood {| total_inj := ninj; Nobs := nobs; Tobs := tobs; surveyed_hypervolume := Some vt;
         categorical := false; marginal_qs := false; indv_weights := []; reconstruct_rate := true;
         marginalize_selection := f_marg fl; min_neff_cut := f_neff fl; max_variance_cut := f_var fl;
         posterior_predictive_check := f_ppc fl; param_names := Some (map fst (entries yml));
         pedata := Some samps; injdata := Some injs; m2min := Fin 2; m1min := Fin 2; mmax := Fin 100; logw := true |} dr
      (PEOne (weights_of_samples w pops samps E n)) (weights_of_injections w pops injs ni).
Proof. intros C D. exact configured_end. Qed.
Print Assumptions C99_configuration_to_likelihood.
(** a complete document that meets the hypotheses *)
Definition alpha99 : yaml := YMap [("prior", YStr "n.N"); ("prior_params", YMap [("loc", YNum (Fin 0)); ("scale", YNum (Fin 3))])].
Definition zmax99 : yaml := YMap (("value", YNum (Fin 2)) :: nil).
Definition doc99 : yaml := YMap [("label", YStr "run1"); ("models", YMap
  [("mass_1", YMap [("model", YStr "m.P"); ("hyper_params", YMap (("alpha", alpha99) :: nil))]);
   ("redshift", YMap [("model", YStr "m.Z"); ("hyper_params", YMap (("maximum", zmax99) :: nil))])])].
Example C99_meets_hypotheses :
  let import := fun (m f : string) => Ok f in let yml := sub "models" doc99 in
  let vals := [("mass_1_alpha", HDraw (Scal (Fin 3))); ("redshift_maximum", HConst (PRaw (YNum (Fin 2))))] in
  wf doc99 /\ ~ has "python_file" yml /\ (forall k s, In (k, s) (entries yml) -> ~ shares s) /\ NoDup (map fst (declared yml)) /\
  (exists p, parse import doc99 new_reader = Ok p) /\
  has "redshift" yml /\ In ("redshift_maximum", zmax99) (declared yml) /\ has_value zmax99 = true /\ sub "value" zmax99 = YNum (Fin 2) /\
  values_of import w66 rv66 (filter (fun kv => has_prior (snd kv) || has_value (snd kv))%bool (declared yml)) vals
     (("mass_1_alpha", (fun _ => Fin 0, None)) :: nil) /\
  (forall grid, Forall2 (fun ks kd => fst ks = fst kd /\ model_of import w66 vals grid (fst ks) (snd ks) (snd kd)) (entries yml) pops66) /\
  Forall (has_table 1 1 samps66) ("prior" :: map fst (entries yml)) /\ Forall (has_column 2 injs66) ("prior" :: map fst (entries yml)).
Proof.
  cbv zeta. split; [|split; [|split; [|split; [|split; [|split; [|split; [|split; [|split; [|split; [|split; [|split]]]]]]]]]]].
  - cbn. repeat (split || constructor); cbn; intuition discriminate.
  - unfold has. cbn. intuition discriminate.
  - intros k s [[= <- <-]|[[= <- <-]|[]]]; unfold shares, has; cbn; intuition discriminate.
  - cbn. repeat constructor; cbn; intuition discriminate.
  - eexists. reflexivity.
  - unfold has. cbn. tauto.
  - cbn. tauto.
  - reflexivity.
  - reflexivity.
  - replace (filter _ _) with [("mass_1_alpha", alpha99); ("redshift_maximum", zmax99)] by reflexivity.
    change (("mass_1_alpha", (fun _ : num => Fin 0, @None num)) :: nil) with ((("mass_1_alpha", (fun _ : num => Fin 0, @None num)) :: nil) ++ [] ++ []).
    constructor; [|constructor; [|constructor]].
    + unfold declared_gives. cbn -[w66 rv66]. exists "n.N", "N", [("loc", PRaw (YNum (Fin 0))); ("scale", PRaw (YNum (Fin 3)))]. eexists.
      split; [reflexivity|]. split; [reflexivity|]. split; [repeat constructor|]. split; [reflexivity|]. split; reflexivity.
    + unfold declared_gives. cbn. eexists. split; [reflexivity|]. split; reflexivity.
  - intros grid. constructor; [|constructor; [|constructor]]; cbn [fst snd]; (split; [reflexivity|]).
    + exists "m.P", "P". split; [reflexivity|]. split; [reflexivity|]. cbn. exists (("alpha", HDraw (Scal (Fin 3))) :: nil). split; [|reflexivity]. split; [repeat constructor; easy|]. repeat constructor.
    + exists "m.Z", "Z". split; [reflexivity|]. split; [reflexivity|]. cbn. exists (("maximum", HConst (PRaw (YNum (Fin 2)))) :: nil). split; [split; [repeat constructor; easy | repeat constructor]|].
      split; [intuition discriminate | reflexivity].
  - repeat constructor; (eexists; split; [reflexivity|]; repeat split; repeat constructor).
  - repeat constructor; (eexists; split; reflexivity).
Qed.
