(** Proofs about the trace plot and the saved samples. *)
From Verif Require Import PConstruct PParser PEnd PAnalysisLik PAnalysisNames.
From Verif Require Import SpecConstruct SpecParser SpecTrace.
Open Scope R_scope.
Open Scope string_scope.
Open Scope list_scope.

Definition sampled {C D} (w : world C D) (kv : string * prior_entry C) : bool :=
  match snd kv with EPrior c ps => match w_prior w c ps with Ok _ => true | _ => false end | EConst _ => false end.
Lemma sites_sampled {C D} (w : world C D) rv priors : forall s s' u, s_each (sample_prior w rv) priors s = (s', Ok u) ->
  map fst (c_sites s') = map fst (c_sites s) ++ map fst (filter (sampled w) priors).
Proof.
  induction priors as [|[k e] r IH]; intros s s' u H; cbn [s_each] in H.
  - injection H as <- _. cbn. now rewrite app_nil_r.
  - unfold s_bind in H. destruct (sample_prior w rv (k, e) s) as [s1 [[]|]] eqn:E1; [|discriminate].
    destruct (s_each (sample_prior w rv) r s1) as [s2 [us|]] eqn:E2; [|discriminate]. injection H as <- _. apply IH in E2. rewrite E2. cbn [filter].
    unfold sampled at 2. cbn [snd]. unfold sample_prior in E1. cbn [fst snd] in E1. destruct e as [c ps|v].
    + destruct (w_prior w c ps) as [d|[]]; try discriminate E1; injection E1 as <-; cbn [c_sites map fst]; [rewrite map_app, <- app_assoc|]; reflexivity.
    + injection E1 as <-. reflexivity.
Qed.
Definition same_sites {D} (l : list string) (s : cstate D) : Prop := map fst (c_sites s) = l.
Lemma set_sites {D} l k (d : option D) : keeps (same_sites l) (set_pop k d).
Proof. apply keeps_put. intros s H. exact H. Qed.
Lemma entry_sites {C D} l (w : world C D) grid k e iid : keeps (same_sites l) (build_entry w grid k e iid).
Proof.
  destruct e as [c ps|c mc mps comps cps|v|y]; cbn [build_entry].
  - apply keeps_bind; [apply lookups_keeps|]. intros kw. cbv zeta. apply keeps_bind; [apply keeps_lift|]. intros d.
    apply keeps_bind; [apply set_sites|]. intros; apply keeps_ret.
  - apply keeps_bind; [apply keeps_each; intros; apply component_keeps|]. intros ds.
    apply keeps_bind; [apply lookups_keeps|]. intros kw. apply keeps_bind; [apply keeps_lift|]. intros md.
    apply keeps_bind; [apply keeps_lift|]. intros d. apply keeps_bind; [apply set_sites|]. intros; apply keeps_ret.
  - apply keeps_ret.
  - apply keeps_raise.
Qed.
Lemma entries_sites {C D} l (w : world C D) grid ms : forall iid, keeps (same_sites l) (build_entries w grid ms iid).
Proof. induction ms as [|[k e] ms IH]; intros iid; cbn [build_entries]; [apply keeps_ret|]. apply keeps_bind; [apply entry_sites|]. exact IH. Qed.
Lemma population_sites {C D} (w : world C D) rv models priors grid samps injs s s' r : population w rv models priors grid samps injs s = (s', Ok r) ->
  map fst (c_sites s') = map fst (c_sites s) ++ map fst (filter (sampled w) priors).
Proof.
  unfold population. unfold s_bind at 1. destruct (s_each (sample_prior w rv) priors s) as [s1 [u|]] eqn:E1; [|discriminate]. intros H.
  apply sites_sampled in E1. rewrite <- E1. 
  assert (K : keeps (same_sites (map fst (c_sites s1))) (step iid <- build_entries w grid models []; step _ <- s_each share iid; rest_of models w samps injs)).
  { apply keeps_bind; [apply entries_sites|]. intros iid. apply keeps_bind; [|intros _; apply rest_keeps].
    apply keeps_each. intros sp _. unfold share. apply keeps_bind; [apply keeps_get|]. intros d. apply set_sites. }
  specialize (K s1 eq_refl). unfold rest_of in K. rewrite H in K. exact K.
Qed.

Definition shown (l : list site) : list string := map s_name (filter (fun s => match s_kind s with Sample | Deterministic => true | _ => false end) l).
Lemma shown_app l m : shown (l ++ m) = shown l ++ shown m.
Proof. unfold shown. now rewrite filter_app, map_app. Qed.
Lemma four_shown a d pe inj r v : reconstruct_rate a = true -> hierarchical_likelihood a d pe inj = (r, Ok v) ->
  forall n, In n ["rate"; "log_nEffs"; "log_nEff_inj"; "log_l"] -> In n (shown r).
Proof.
  intros HR H. rewrite hl_shape in H. destruct (bad_flags a); [discriminate|]. destruct (event_part a d pe) as [s0 [[[B E] V]|e]]; [|discriminate].
  destruct (detection_efficiency _ _ _) as [[[lm le] v']|e]; [|discriminate]. rewrite HR in H. destruct (surveyed_hypervolume a) as [vt|] eqn:EV; [|discriminate]. cbn [andb] in H.
  destruct (min_neff_cut a && _)%bool; [discriminate|]. cbv zeta in H. apply (f_equal fst) in H. cbn [fst] in H. subst r. intros n Hn. rewrite !shown_app. apply in_or_app; right. apply in_or_app; left.
  unfold pre_sites, rate_sites. rewrite HR, EV. cbn in Hn |- *. intuition.
Qed.
Lemma likelihood_shown a d pe inj n : categorical a = false -> (forall ps, param_names a = Some ps -> NoDup ps) -> In n (shown (fst (hierarchical_likelihood a d pe inj))) -> In n fixed_names \/ evlike n = true.
Proof.
  intros HC HP H. assert (P0 : names (fst (event_part a d pe)) = []).
  { unfold event_part. rewrite HC. destruct pe as [|[|w0 [|w1 ws]]]; reflexivity. }
  assert (I : In n (names (fst (hierarchical_likelihood a d pe inj)))).
  { unfold shown in H. apply in_map_iff in H as (x & <- & Hx). apply filter_In in Hx as [Hx _]. unfold names. now apply in_map. }
  clear H. revert I. rewrite hl_shape. 
  destruct (bad_flags a); [intros []|]. destruct (event_part a d pe) as [s0 [[[B E] V]|e]]; cbn [fst] in *; [|rewrite P0; intros []].
  destruct (detection_efficiency _ _ _) as [[[lm le] v']|e]; [|cbn [fst]; rewrite P0; intros []].
  destruct (reconstruct_rate a && _)%bool.
  { cbn [fst]. rewrite names_app, P0. cbn. intuition. }
  destruct (min_neff_cut a && _)%bool.
  { cbn [fst]. rewrite names_app, P0. unfold pre_sites, rate_sites. destruct (reconstruct_rate a); [destruct (surveyed_hypervolume a)|]; cbn; intuition. }
  cbn [fst]. rewrite !app_assoc, names_app. intros I. apply in_app_or in I as [I|I].
  - left. revert I. rewrite !names_app, P0. unfold pre_sites, post_sites, rate_sites.
    destruct (reconstruct_rate a); [destruct (surveyed_hypervolume a)|]; destruct (min_neff_cut a), (max_variance_cut a); cbn; intuition.
  - right. unfold when in I. destruct (posterior_predictive_check a); [|destruct I]. apply ppc_names in I; auto.
Qed.

Lemma call_names {C D} (w : world C D) fl models priors grid rv dr samps injs ninj nobs tobs s v :
  let out := call_model w fl models priors grid rv dr samps injs ninj nobs tobs s in snd (snd out) = Ok v ->
  map fst (c_sites (fst out)) = map fst (filter (sampled w) priors) /\ forall n, In n ["rate"; "log_nEffs"; "log_nEff_inj"; "log_l"] -> In n (shown (fst (snd out))).
Proof.
  cbv zeta. unfold call_model. destruct (population _ _ _ _ _ _ _ _) as [s1 [[[pw iw] vt]|e]] eqn:E; cbn [fst snd]; [|discriminate]. intros H.
  apply population_sites in E. split; [exact E|]. destruct (hierarchical_likelihood _ _ _ _) as [l r] eqn:HL. cbn [snd] in H. subst r. eapply four_shown; [|exact HL]. reflexivity.
Qed.
Lemma settings {C} (import : string -> string -> result C) doc p o l : wf doc -> parse import doc new_reader = Ok p -> setting "outdir" "./" doc o -> setting "label" "label" doc l ->
  p_outdir p = YStr o /\ p_label p = YStr l.
Proof.
  intros _ H (O1 & O2) (L1 & L2). destruct doc as [| | | |d|]; try discriminate H. cbn [parse] in H. destruct (assoc "models" d) as [m|]; [|discriminate]. cbn [rbind] in H.
  destruct (construct_model_and_prior_dicts _ _ _) as [r|]; [|discriminate]. cbn [rbind] in H. injection H as <-. cbn [p_outdir p_label]. unfold pop.
  assert (X : forall k dflt t, (has k (YMap d) -> sub k (YMap d) = YStr t) -> (~ has k (YMap d) -> t = dflt) -> match assoc k d with Ok v => v | Err _ => YStr dflt end = YStr t).
  { intros k df t H1 H2. unfold has in *. cbn [entries] in *. cbn [sub] in H1. destruct (assoc k d) as [v|e] eqn:E.
    - apply H1. apply (assoc_keys k d). eauto.
    - apply assoc_err in E as (_ & E). f_equal. symmetry. auto. }
  split; apply X; auto.
Qed.
Lemma sappl (a b c d : string) : ((a ++ b ++ c) ++ d = a ++ b ++ c ++ d)%string.
Proof. now rewrite !sapp_assoc. Qed.
Theorem trace_written C D (import : string -> string -> result C) (w : world C D) fl rv dr doc p o l grid samps injs ninj nobs tobs s v :
  wf doc -> ~ has "python_file" (sub "models" doc) -> NoDup (map fst (declared (sub "models" doc))) -> parse import doc new_reader = Ok p ->
  setting "outdir" "./" doc o -> setting "label" "label" doc l -> (forall c ps, w_prior w c ps <> Err AttributeError) ->
  let out := call_model w fl (r_models (p_reader p)) (r_priors (p_reader p)) grid rv dr samps injs ninj nobs tobs s in
  snd (snd out) = Ok v -> finished o l (sub "models" doc) (finish p out).
Proof.
  intros Wd NP ND HP HO HL HA out Hv. destruct (settings _ _ _ _ _ Wd HP HO HL) as (E1 & E2). unfold finish. rewrite E1, E2. cbv zeta. unfold plot_trace_dump_samples.
  destruct doc as [| | | |d|]; try discriminate HP. cbn [parse] in HP. cbn [sub] in NP, ND |- *. destruct (assoc "models" d) as [m|] eqn:EM; [|discriminate]. cbn [rbind] in HP.
  destruct (construct_model_and_prior_dicts _ _ _) as [r|] eqn:ER; [|discriminate]. cbn [rbind] in HP. injection HP as <-. cbn [p_reader] in *.
  assert (Wm : wf m). { change m with (match @Ok yaml m with Ok v => v | Err _ => YNull end). rewrite <- EM. apply (wf_sub "models" (YMap d) Wd). }
  destruct (reader_records import m new_reader r Wm NP ER) as (R1 & _). cbn [r_sampling new_reader app] in R1.
  replace (r_sampling r ++ _) with (to_trace m) by (rewrite R1; reflexivity).
  assert (I : incl (to_trace m) (posterior_names out)).
  2:{ replace (forallb _ _) with true; [exists (posterior_names out); rewrite !sappl; split; [reflexivity|exact I]|]. symmetry. apply forallb_forall. intros n Hn. apply existsb_exists. exists n. rewrite String.eqb_refl. auto. }
  intros n Hn.
  destruct (call_names _ _ _ _ _ _ _ _ _ _ _ _ _ _ Hv) as (S1 & S2). fold out in S1, S2. unfold posterior_names. fold (shown (fst (snd out))). unfold to_trace in Hn. apply in_app_or in Hn as [Hn|Hn]; [|apply in_or_app; right; auto].
  apply in_or_app; left. rewrite S1. apply in_map_iff in Hn as ((k & decl) & <- & Hk). apply filter_In in Hk as (Hk & HPr). cbn [fst snd] in *.
  destruct (reader_values import m new_reader r k decl Wm NP ND ER Hk (or_introl HPr)) as (e & He & PE). unfold prior_entry_for in PE. rewrite HPr in PE. destruct PE as (nm & c & ps & _ & _ & -> & _).
  apply in_map_iff. exists (k, EPrior c ps). split; [reflexivity|]. apply filter_In. split; [now apply assoc_in|]. unfold sampled. cbn [snd].
  destruct (w_prior w c ps) as [dd|e] eqn:EW; [reflexivity|]. exfalso.
  (* any exception other than AttributeError ends the call *)
  assert (F : forall rv priors s s' u, s_each (sample_prior w rv) priors s = (s', Ok u) -> In (k, EPrior c ps) priors -> False).
  { clear - EW HA. intros rv priors. induction priors as [|[k' e'] q IH]; intros s s' u H I; [destruct I|]. cbn [s_each] in H. unfold s_bind in H.
    destruct (sample_prior w rv (k', e') s) as [s1 [[]|]] eqn:E1; [|discriminate]. destruct (s_each (sample_prior w rv) q s1) as [s2 [us|]] eqn:E2; [|discriminate]. destruct I as [I|I]; [|eauto].
    injection I as -> ->. unfold sample_prior in E1. cbn [fst snd] in E1. rewrite EW in E1. specialize (HA c ps). rewrite EW in HA. destruct e; try discriminate. now apply HA. }
  unfold out, call_model in Hv. destruct (population _ _ _ _ _ _ _ _) as [s1 [x|e1]] eqn:EP; [|discriminate Hv]. unfold population in EP. unfold s_bind at 1 in EP.
  destruct (s_each (sample_prior w rv) (r_priors r) _) as [s2 [u|]] eqn:E9; [|discriminate EP]. eapply F; [exact E9|]. now apply assoc_in.
Qed.

(** a name that is declared with a prior and overwritten by a value *)
Theorem trace_lost C D (w : world C D) fl rv dr p name v0 grid samps injs ninj nobs tobs s v o l :
  is_dict (r_models (p_reader p)) -> p_outdir p = YStr o -> p_label p = YStr l -> In name (r_sampling (p_reader p)) -> is_dict (r_priors (p_reader p)) -> assoc name (r_priors (p_reader p)) = Ok (EConst v0) ->
  ~ In name fixed_names -> evlike name = false ->
  let out := call_model w fl (r_models (p_reader p)) (r_priors (p_reader p)) grid rv dr samps injs ninj nobs tobs s in
  snd (snd out) = Ok v -> finish p out = ([], Err KeyError).
Proof.
  intros Dm E1 E2 Hn Dp Ha N1 N2 out Hv. unfold finish. rewrite E1, E2. cbv zeta. unfold plot_trace_dump_samples. replace (forallb _ _) with false; [reflexivity|]. symmetry. apply Bool.not_true_iff_false. intros F.
  rewrite forallb_forall in F. specialize (F name (in_or_app _ _ _ (or_introl Hn))). apply existsb_exists in F as (x & Hx & E). apply String.eqb_eq in E as <-.
  destruct (call_names _ _ _ _ _ _ _ _ _ _ _ _ _ _ Hv) as (S1 & _). fold out in S1. unfold posterior_names in Hx. apply in_app_or in Hx as [Hx|Hx].
  - rewrite S1 in Hx. apply in_map_iff in Hx as ((k & e) & <- & Hx). apply filter_In in Hx as (Hx & HS). cbn [fst] in *. apply (in_assoc _ _ _ Dp) in Hx. rewrite Ha in Hx. injection Hx as <-. discriminate HS.
  - fold (shown (fst (snd out))) in Hx. unfold out, call_model in Hx, Hv. destruct (population _ _ _ _ _ _ _ _) as [s1 [[[pw iw] vt]|e1]]; [|discriminate Hv]. cbn [snd] in Hx.
    apply likelihood_shown in Hx; [|reflexivity|]; [destruct Hx; [auto|congruence]|]. intros ps. cbn [likelihood_args param_names]. intros [= <-]. exact Dm.
Qed.
