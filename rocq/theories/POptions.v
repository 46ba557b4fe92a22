(** Proofs about the likelihood section of a configuration. *)
From Verif Require Import PConstruct PParser PEnd PAnalysisLik NumFacts MRun.
From Verif Require Import SpecConstruct SpecParser SpecOptions.
Open Scope R_scope.
Open Scope string_scope.
Open Scope list_scope.

Lemma truthy_off y : truthy y = false <-> off y.
Proof.
  unfold off. split.
  - destruct y as [|b|x|s|l|d]; cbn; intros H; auto 10.
    + subst; auto.
    + right; right; left. destruct x as [x| | |]; cbn in H; try discriminate. apply Bool.negb_false_iff in H. f_equal. f_equal.
      revert H. unfold Reqb; destruct (Req_EM_T x 0); [auto|discriminate].
    + apply Bool.negb_false_iff, String.eqb_eq in H. subst; auto 10.
    + destruct l; [auto 10|discriminate].
    + destruct d; [auto 10|discriminate].
  - intros [->|[->|[->|[->|[->| ->]]]]]; try reflexivity. cbn. apply Bool.negb_false_iff. unfold Reqb; destruct (Req_EM_T 0 0); [reflexivity|lra].
Qed.
Lemma bind_chosen section m n v c : is_section section -> chosen section "marginalize_selection" false m -> chosen section "min_neff_cut" true n ->
  chosen section "max_variance_cut" false v -> chosen section "posterior_predictive_check" true c -> bind_options section = Ok (Flags m n v c).
Proof.
  intros (d & -> & HK) Hm Hn Hv Hc. cbn [bind_options]. replace (forallb _ _) with true.
  2:{ symmetry. apply forallb_forall. intros k Hk. apply existsb_exists. exists k. rewrite String.eqb_refl. split; [|reflexivity]. exact (HK k Hk). }
  assert (X : forall k df b, chosen (YMap d) k df b -> match assoc k d with Ok v => truthy v | Err _ => df end = b).
  { intros k df b (H1 & H2). unfold has in *. cbn [entries sub] in *. destruct (assoc k d) as [y|e] eqn:E.
    - assert (HI : In k (map fst d)) by (apply (assoc_keys k d); eauto). specialize (H1 HI). rewrite <- truthy_off in H1. destruct b, (truthy y); try reflexivity; exfalso.
      + assert (true = false) by (apply H1; reflexivity). discriminate.
      + assert (true = false) by (apply H1; reflexivity). discriminate.
    - apply assoc_err in E as (_ & E). symmetry. auto. }
  cbv zeta. now rewrite (X _ _ _ Hm), (X _ _ _ Hn), (X _ _ _ Hv), (X _ _ _ Hc).
Qed.
Lemma section_parsed {C} (import : string -> string -> result C) doc p section : parse import doc new_reader = Ok p -> likelihood_section doc section -> p_likelihood p = section.
Proof.
  intros H (H1 & H2). destruct doc as [| | | | |d]; try discriminate H. cbn [parse] in H. destruct (assoc "models" d) as [m|]; [|discriminate]. cbn [rbind] in H.
  destruct (construct_model_and_prior_dicts _ _ _) as [r|]; [|discriminate]. cbn [rbind] in H. injection H as <-. cbn [p_likelihood]. unfold pop. unfold has in *. cbn [entries sub] in *.
  destruct (assoc "likelihood" d) as [y|e] eqn:E.
  - apply H1. apply (assoc_keys "likelihood" d). eauto.
  - apply assoc_err in E as (_ & E). symmetry. auto.
Qed.
Theorem options_used C D (import : string -> string -> result C) (w : world C D) rv dr doc p zmax decl samps injs E n ni vals sites pops zd vt ninj nobs tobs section m nf v c :
  let yml := sub "models" doc in
  let grid := nlinspace (Fin (/ 10 ^ 9)) zmax 1000 in
  wf doc -> ~ has "python_file" yml -> (forall k s, In (k, s) (entries yml) -> ~ shares s) -> NoDup (map fst (declared yml)) ->
  parse import doc new_reader = Ok p ->
  has "redshift" yml -> In ("redshift_maximum", decl) (declared yml) -> has_value decl = true -> sub "value" decl = YNum zmax ->
  values_of import w rv (filter (fun kv => has_prior (snd kv) || has_value (snd kv))%bool (declared yml)) vals sites ->
  Forall2 (fun ks kd => fst ks = fst kd /\ model_of import w vals grid (fst ks) (snd ks) (snd kd)) (entries yml) pops ->
  Forall (has_table E n samps) ("prior" :: map fst (entries yml)) -> Forall (has_column ni injs) ("prior" :: map fst (entries yml)) ->
  assoc "redshift" pops = Ok zd -> w_norm w zd = Some vt ->
  likelihood_section doc section -> is_section section ->
  chosen section "marginalize_selection" false m -> chosen section "min_neff_cut" true nf -> chosen section "max_variance_cut" false v -> chosen section "posterior_predictive_check" true c ->
  exists fl (s0 : cstate D), build_from_config import doc = Ok (p, fl, grid, s0) /\
  forall s, reachable (r_models (p_reader p)) (r_priors (p_reader p)) s ->
    snd (call_model w fl (r_models (p_reader p)) (r_priors (p_reader p)) grid rv dr samps injs ninj nobs tobs s) =
    hierarchical_likelihood {| total_inj := ninj; Nobs := nobs; Tobs := tobs; surveyed_hypervolume := Some vt;
         categorical := false; marginal_qs := false; indv_weights := []; reconstruct_rate := true;
         marginalize_selection := m; min_neff_cut := nf; max_variance_cut := v; posterior_predictive_check := c;
         param_names := Some (map fst (entries yml)); pedata := Some samps; injdata := Some injs; m2min := Fin 2; m1min := Fin 2; mmax := Fin 100; logw := true |} dr
      (PEOne (weights_of_samples w pops samps E n)) (weights_of_injections w pops injs ni).
Proof.
  intros yml grid W NP NS ND Hp Hz Hm Hv Hzm HV HM HT HC Hzd Hvt HL HS C1 C2 C3 C4. exists (Flags m nf v c).
  destruct (configured_end import w (Flags m nf v c) rv dr doc p zmax decl samps injs E n ni vals sites pops zd vt ninj nobs tobs W NP NS ND Hp Hz Hm Hv Hzm HV HM HT HC Hzd Hvt) as (s0 & E0 & _ & H). 
  exists s0. split.
  - unfold build_from_config. rewrite Hp. cbn [rbind]. rewrite (section_parsed _ _ _ _ Hp HL), (bind_chosen section m nf v c HS C1 C2 C3 C4). cbn [rbind]. rewrite E0. reflexivity.
  - intros s Hs. apply (H s Hs).
Qed.
Lemma options_refused C D (import : string -> string -> result C) doc p section : parse import doc new_reader = Ok p -> likelihood_section doc section -> ~ is_section section ->
  @build_from_config C D import doc = Err TypeError.
Proof.
  intros Hp HL NS. unfold build_from_config. rewrite Hp. cbn [rbind]. rewrite (section_parsed _ _ _ _ Hp HL). replace (bind_options section) with (@Err flags TypeError); [reflexivity|].
  unfold bind_options. destruct section as [| | | | |d]; try reflexivity. destruct (forallb _ _) eqn:F; [|reflexivity]. exfalso. apply NS. exists d. split; [reflexivity|]. intros k Hk. rewrite forallb_forall in F. specialize (F k Hk).
  apply existsb_exists in F as (x & Hx & E). apply String.eqb_eq in E as <-. exact Hx.
Qed.
Lemma contradictory C D (import : string -> string -> result C) (w : world C D) doc p section m nf fl grid (s0 : cstate D) rv dr samps injs ninj nobs tobs s : likelihood_section doc section ->
  chosen section "marginalize_selection" false m -> chosen section "min_neff_cut" true nf -> chosen section "max_variance_cut" false true -> m = true \/ nf = true ->
  build_from_config import doc = Ok (p, fl, grid, s0) ->
  raises (snd (call_model w fl (r_models (p_reader p)) (r_priors (p_reader p)) grid rv dr samps injs ninj nobs tobs s)).
Proof.
  intros HL C1 C2 C3 HB H. unfold build_from_config in H. destruct (parse import doc new_reader) as [p'|] eqn:Hp; [|discriminate]. cbn [rbind] in H.
  pose proof (section_parsed _ _ _ _ Hp HL) as ES. rewrite ES in H. destruct (bind_options section) as [fl'|] eqn:EB; [|discriminate]. cbn [rbind] in H.
  destruct (construct_hierarchical_model _ _) as [gs|]; [|discriminate]. cbn [rbind] in H. injection H as -> -> _ _.
  assert (HS : is_section section). { unfold bind_options in EB. destruct section as [| | | | |d]; try discriminate. destruct (forallb _ _) eqn:F; [|discriminate]. exists d. split; [reflexivity|]. intros k Hk. rewrite forallb_forall in F. specialize (F k Hk). apply existsb_exists in F as (x & Hx & E). apply String.eqb_eq in E as <-. exact Hx. }
  assert (HP : exists c, chosen section "posterior_predictive_check" true c).
  { destruct (in_dec string_dec "posterior_predictive_check" (map fst (entries section))) as [I|I].
    - exists (truthy (sub "posterior_predictive_check" section)). split; [intros _; apply truthy_off|intros N; destruct (N I)].
    - exists true. split; [intros N; destruct (I N)|reflexivity]. }
  destruct HP as (c & C4). rewrite (bind_chosen section m nf true c HS C1 C2 C3 C4) in EB. injection EB as <-. unfold call_model. destruct (population _ _ _ _ _ _ _ _) as [s1 [[[pw iw] vt]|e]]; cbn [snd].
  - exists ValueError. unfold hierarchical_likelihood, likelihood_args. cbn [max_variance_cut marginalize_selection min_neff_cut f_marg f_neff f_var]. replace (true && (m || nf))%bool with true; [reflexivity|]. destruct HB as [-> | ->]; [reflexivity|]. now rewrite Bool.orb_true_r.
  - exists e. reflexivity.
Qed.
Lemma run_options C (import : string -> string -> result C) lc li doc p k r section : run_inference import lc li doc = Ok (k, r) -> parse import doc new_reader = Ok p ->
  ~ In "file_path" (keys (r_models (p_reader p))) -> likelihood_section doc section -> is_section section.
Proof.
  intros H Hp NF HL. unfold run_inference in H. rewrite Hp in H. cbn [rbind] in H. destruct (assoc "file_path" (r_models (p_reader p))) as [e|e] eqn:EF.
  { exfalso. apply NF. apply assoc_keys. eauto. }
  rewrite (section_parsed _ _ _ _ Hp HL) in H. destruct (bind_options section) as [fl|] eqn:EB; [|discriminate].
  unfold bind_options in EB. destruct section as [| | | | |d]; try discriminate. destruct (forallb _ _) eqn:F; [|discriminate]. exists d. split; [reflexivity|]. intros x Hx. rewrite forallb_forall in F. specialize (F x Hx).
  apply existsb_exists in F as (y & Hy & E). apply String.eqb_eq in E as <-. exact Hy.
Qed.
