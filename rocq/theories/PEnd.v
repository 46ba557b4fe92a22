(** Configuration to population. *)
From Coq Require Import Lia.
From Verif Require Import PConstruct PParser.
From Verif Require Export SpecEnd.
Open Scope R_scope.
Open Scope string_scope.
Open Scope list_scope.

Lemma dset_new {A} k (v : A) d : ~ In k (keys d) -> dset k v d = d ++ (k, v) :: nil.
Proof. induction d as [|[a b] d IH]; cbn; [reflexivity|]. intros N. destruct (String.eqb_spec k a); [subst; tauto|]. rewrite IH by tauto. reflexivity. Qed.

Section End.
Context {C D : Type} (import : string -> string -> result C) (w : world C D).

Definition given (kv : string * yaml) : bool := (has_prior (snd kv) || has_value (snd kv))%bool.
Lemma rec_exact ds pr sm pr' sm' : rec import ds pr sm pr' sm' -> NoDup (map fst ds) -> (forall k, In k (map fst ds) -> ~ In k (keys pr)) ->
  exists es, pr' = pr ++ es /\ Forall2 (fun kd ke => fst kd = fst ke /\ prior_entry_for import (snd kd) (snd ke)) (filter given ds) es.
Proof.
  induction 1 as [|[k y] ds pr sm pr1 sm1 pr2 sm2 S R IH]; intros ND NI; [exists []; split; [now rewrite app_nil_r|constructor]|].
  cbn in ND. apply NoDup_cons_iff in ND. destruct ND as [N1 N2]. unfold stepp in S. cbn [fst snd] in S. cbn [filter]. unfold given at 1. cbn [snd].
  assert (G : forall e, prior_entry_for import y e -> pr1 = dset k e pr ->
    exists es, pr2 = pr ++ es /\ Forall2 (fun kd ke => fst kd = fst ke /\ prior_entry_for import (snd kd) (snd ke)) ((k, y) :: filter given ds) es).
  { intros e He E1. rewrite dset_new in E1 by (apply NI; now left). destruct IH as (es & E2 & F); [exact N2| |].
    - intros k' Hk'. subst pr1. unfold keys. rewrite map_app, in_app_iff. cbn. intros [Hi|[->|[]]]; [apply (NI k'); [now right|exact Hi]|tauto].
    - exists ((k, e) :: es). split; [subst; now rewrite <- app_assoc|]. constructor; auto. }
  destruct (has_prior y); [destruct S as (e & He & E1 & _); cbn [orb]; eapply G; eauto|].
  destruct (has_value y); cbn [orb]; [destruct S as (e & He & E1 & _); eapply G; eauto|].
  destruct S as [-> ->]. apply IH; [exact N2|]. intros k' Hk'. apply NI. now right.
Qed.

Lemma built_exact l r r' : built import l r r' -> NoDup (map fst l) -> (forall k subd, In (k, subd) l -> ~ shares subd) ->
  (forall k, In k (map fst l) -> ~ In k (keys (r_models r))) ->
  exists es, r_models r' = r_models r ++ es /\ Forall2 (fun kd ke => fst kd = fst ke /\ model_entry_for import (snd kd) (snd ke)) l es.
Proof.
  induction 1 as [|k subd e l r r1 r2 S He Hm B IH]; intros ND Ns NI; [exists []; split; [now rewrite app_nil_r|constructor]|].
  cbn in ND. apply NoDup_cons_iff in ND. destruct ND as [N1 N2].
  destruct Hm as [Hm|[Hs _]]; [|exfalso; eapply Ns; [left; reflexivity | exact Hs]].
  rewrite dset_new in Hm by (apply NI; now left). destruct IH as (es & E2 & F); [exact N2|intros; eapply Ns; right; eauto| |].
  - intros k' Hk'. rewrite Hm. unfold keys. rewrite map_app, in_app_iff. cbn. intros [Hi|[->|[]]]; [apply (NI k'); [now right|exact Hi]|tauto].
  - exists ((k, e) :: es). split; [rewrite E2, Hm; now rewrite <- app_assoc|]. constructor; auto.
Qed.

Lemma converted_fun y v v' : converted y v -> converted y v' -> v = v'.
Proof. unfold converted. destruct y; try congruence. intros [-> _] [-> _]. reflexivity. Qed.
Lemma params_fun d : forall ps ps', Forall2 (fun (kv : string * yaml) (kp : string * pval) => fst kv = fst kp /\ converted (snd kv) (snd kp)) d ps ->
  Forall2 (fun (kv : string * yaml) (kp : string * pval) => fst kv = fst kp /\ converted (snd kv) (snd kp)) d ps' -> ps = ps'.
Proof.
  induction d as [|a d IH]; intros ps ps' H H'; inversion H as [|? [k v] ? ? [E1 E2] F]; inversion H' as [|? [k' v'] ? ? [E1' E2'] F']; subst; [reflexivity|].
  cbn in *. rewrite (converted_fun _ _ _ E2 E2'). f_equal; [congruence|]. auto.
Qed.

Lemma values_priors rv ds : forall es vals sites, Forall2 (fun kd ke => fst kd = fst ke /\ prior_entry_for import (snd kd) (snd ke)) ds es ->
  values_of import w rv ds vals sites -> priors_give w rv es vals sites.
Proof.
  induction ds as [|[k decl] ds IH]; intros es vals sites F V; inversion F as [|? [k' e] ? ? [E1 E2] F']; inversion V as [|? ? ? v s vs ss G V']; subst; [constructor|].
  cbn in E1, E2. subst k'. constructor; [|apply IH; auto]. unfold declared_gives, prior_entry_for in *. destruct (has_prior decl).
  - destruct G as (name & c & ps & d & N1 & L1 & P1 & W1 & -> & ->). destruct E2 as (name' & c' & ps' & N2 & L2 & -> & P2). cbn.
    assert (name' = name) by congruence. subst. assert (c' = c) by congruence. subst. rewrite <- (params_fun _ _ _ P1 P2). exists d. auto.
  - destruct G as (c & Hc & -> & ->). destruct E2 as (c' & Hc' & ->). cbn. rewrite (converted_fun _ _ _ Hc Hc'). auto.
Qed.

Lemma Forall2_nth_error {A B} (P : A -> B -> Prop) l m i a b : Forall2 P l m -> nth_error l i = Some a -> nth_error m i = Some b -> P a b.
Proof.
  intros F. revert i. induction F as [|x y l m H F IH]; intros i; [destruct i; discriminate|]. destruct i as [|i]; cbn; [congruence|]. apply IH.
Qed.
Lemma nth_error_seq s n i : (i < n)%nat -> nth_error (seq s n) i = Some (s + i)%nat.
Proof. revert s i. induction n as [|n IH]; intros s i H; [lia|]. destruct i as [|i]; cbn; [f_equal; lia|]. rewrite IH by lia. f_equal. lia. Qed.

Lemma model_configured vals grid param subd d e : model_entry_for import subd e -> model_of import w vals grid param subd d ->
  configured w vals grid param e d.
Proof.
  intros (name & c & N1 & L1 & H) (name' & c' & N2 & L2 & G). assert (name' = name) by congruence. subst. assert (c' = c) by congruence. subst.
  destruct (mixture subd).
  - destruct H as (mn & mc & cs & M1 & M2 & F & ->). destruct G as (mn' & mc' & mkw & md & ds & M1' & M2' & K & W1 & F' & W2).
    assert (mn' = mn) by congruence. subst. assert (mc' = mc) by congruence. subst. cbn.
    pose proof (Forall2_len _ _ _ F) as Lc. pose proof (Forall2_len _ _ _ F') as Ld. rewrite seq_length in Lc, Ld.
    exists ds, mkw, md. split; [rewrite map_length, seq_length; auto|]. split; [congruence|]. split; [|auto].
    intros i c1 ps d1 Hc Hp Hd.
    assert (Hi : (i < n_components subd)%nat) by (rewrite Lc; apply nth_error_Some; congruence).
    pose proof (nth_error_seq 1 _ _ Hi) as Hs. cbn [Nat.add] in Hs.
    destruct (Forall2_nth_error _ _ _ _ _ _ F Hs Hc) as (n1 & A1 & A2). destruct (Forall2_nth_error _ _ _ _ _ _ F' Hs Hd) as (n2 & c2 & kw & B1 & B2 & B3 & B4).
    rewrite nth_error_map, Hs in Hp. cbn in Hp. injection Hp as <-.
    assert (n2 = n1) by congruence. subst. assert (c2 = c1) by congruence. subst. exists kw. auto.
  - subst e. cbn. exact G.
Qed.

Lemma Forall2_keys {A B} (P : string * A -> string * B -> Prop) l m : Forall2 (fun x y => fst x = fst y /\ P x y) l m -> map fst m = map fst l.
Proof. induction 1 as [|x y l m [H _] _ IH]; cbn; [reflexivity|]. congruence. Qed.
Lemma NoDup_filter_keys {A} (f : string * A -> bool) l : NoDup (map fst l) -> NoDup (map fst (filter f l)).
Proof.
  induction l as [|x l IH]; cbn; [auto|]. intros H. apply NoDup_cons_iff in H. destruct H as [H1 H2]. destruct (f x); [|auto]. cbn. constructor; [|auto].
  rewrite in_map_iff in *. intros (y & E & Hy). apply H1. apply filter_In in Hy. exists y. tauto.
Qed.

Theorem configured_end fl rv dr doc p zmax decl samps injs E n ni vals sites pops zd vt Ninj Nobs Tobs : 
  let yml := sub "models" doc in
  let grid := nlinspace (Fin (/ 10 ^ 9)) zmax 1000 in
  wf doc -> ~ has "python_file" yml -> (forall k s, In (k, s) (entries yml) -> ~ shares s) -> NoDup (map fst (declared yml)) ->
  parse import doc new_reader = Ok p ->
  has "redshift" yml -> In ("redshift_maximum", decl) (declared yml) -> has_value decl = true -> sub "value" decl = YNum zmax ->
  values_of import w rv (filter (fun kv => has_prior (snd kv) || has_value (snd kv))%bool (declared yml)) vals sites ->
  Forall2 (fun ks kd => fst ks = fst kd /\ model_of import w vals grid (fst ks) (snd ks) (snd kd)) (entries yml) pops ->
  Forall (has_table E n samps) ("prior" :: map fst (entries yml)) -> Forall (has_column ni injs) ("prior" :: map fst (entries yml)) ->
  assoc "redshift" pops = Ok zd -> w_norm w zd = Some vt ->
  exists s0 : cstate D, construct_hierarchical_model (r_models (p_reader p)) (r_priors (p_reader p)) = Ok (grid, s0) /\
  r_sampling (p_reader p) = map fst sites /\
  forall s, reachable (r_models (p_reader p)) (r_priors (p_reader p)) s ->
    let out := call_model w fl (r_models (p_reader p)) (r_priors (p_reader p)) grid rv dr samps injs Ninj Nobs Tobs s in
    c_sites (fst out) = sites /\
    snd out = hierarchical_likelihood {| total_inj := Ninj; Nobs := Nobs; Tobs := Tobs; surveyed_hypervolume := Some vt;
         categorical := false; marginal_qs := false; indv_weights := []; reconstruct_rate := true;
         marginalize_selection := f_marg fl; min_neff_cut := f_neff fl; max_variance_cut := f_var fl;
         posterior_predictive_check := f_ppc fl; param_names := Some (map fst (entries yml));
         pedata := Some samps; injdata := Some injs; m2min := Fin 2; m1min := Fin 2; mmax := Fin 100; logw := true |} dr
      (PEOne (weights_of_samples w pops samps E n)) (weights_of_injections w pops injs ni).
Proof.
  intros yml grid W NP NS ND Hp Hz Hm Hv Hzm HV HM HT HC Hzd Hvt.
  assert (R : construct_model_and_prior_dicts import yml new_reader = Ok (p_reader p)).
  { unfold parse in Hp. destruct doc as [| | | | |d]; try discriminate. destruct (assoc "models" d) as [m|] eqn:Em; cbn [rbind] in Hp; [|discriminate].
    destruct (construct_model_and_prior_dicts import m new_reader) as [r|] eqn:Ec; cbn [rbind] in Hp; [|discriminate]. injection Hp as <-. cbn [p_reader].
    unfold yml. cbn. rewrite Em. exact Ec. }
  pose proof (wf_sub "models" _ W) as Wy. fold yml in Wy. pose proof (construct_built import _ _ _ Wy NP R) as B.
  destruct (built_exact _ _ _ B (wf_nodup _ Wy) NS) as (ms & Em & Fm); [cbn; tauto|]. cbn in Em.
  destruct (rec_exact _ _ _ _ _ (built_rec import _ _ _ B) ND) as (ps & Ep & Fp); [cbn; tauto|]. cbn in Ep.
  pose proof (Forall2_keys _ _ _ Fm) as Km. pose proof (Forall2_keys _ _ _ Fp) as Kp.
  assert (Dm : is_dict (r_models (p_reader p))) by (unfold is_dict, keys; rewrite Em, Km; apply wf_nodup; auto).
  assert (Dp : is_dict (r_priors (p_reader p))) by (unfold is_dict, keys; rewrite Ep, Kp; apply NoDup_filter_keys; auto).
  pose proof (values_priors rv _ _ _ _ Fp HV) as PG. rewrite <- Ep in PG.
  assert (PI : population_is w vals grid (r_models (p_reader p)) pops).
  { rewrite Em. unfold population_is. clear - Fm HM. clearbody grid. revert pops HM. induction Fm as [|[k s] [k' e] l m [H1 H2] F IH]; intros pops HM; inversion HM as [|? [k'' d] ? ? [G1 G2] F2]; subst; [constructor|].
    cbn [fst snd] in *. subst. constructor; [|auto]. split; [reflexivity|]. cbn [fst snd]. eapply model_configured; eauto. }
  assert (Keys : keys (r_models (p_reader p)) = map fst (entries yml)) by (unfold keys; rewrite Em; exact Km).
  assert (Hzg : z_grid (r_priors (p_reader p)) = Ok grid).
  { destruct (reader_values import yml new_reader (p_reader p) "redshift_maximum" decl Wy NP ND R Hm (or_intror Hv)) as (e & E1 & E2).
    unfold z_grid. rewrite E1. cbn [rbind]. unfold prior_entry_for in E2. unfold has_value in Hv. destruct (has_prior decl); [discriminate|].
    destruct E2 as (v & Hc & ->). rewrite Hzm in Hc. cbn in Hc. subst v. reflexivity. }
  eexists. split; [|split].
  - unfold construct_hierarchical_model. replace (mem "redshift" (r_models (p_reader p))) with true; [rewrite Hzg; reflexivity|].
    symmetry. apply mem_keys. rewrite Keys. exact Hz.
  - destruct (reader_records import yml new_reader (p_reader p) Wy NP R) as [-> _]. cbn [r_sampling new_reader app].
    clear - HV. induction (declared yml) as [|[k y] l IH] in vals, sites, HV |- *; cbn [filter map] in *; [inversion HV; reflexivity|]. cbn [snd] in *.
    destruct (has_prior y) eqn:Hp.
    + cbn [orb] in HV. inversion HV as [|? ? ? v s vs ss G V]; subst. unfold declared_gives in G. rewrite Hp in G. destruct G as (nm & c & ps & d & _ & _ & _ & _ & _ & ->).
      cbn. f_equal. eapply IH; eauto.
    + cbn [orb] in HV. destruct (has_value y); [|eapply IH; eauto]. inversion HV as [|? ? ? v s vs ss G V]; subst. unfold declared_gives in G. rewrite Hp in G. destruct G as (c & _ & _ & ->).
      cbn. eapply IH; eauto.
  - intros s _ out. unfold out. rewrite <- Keys in *. exact (call_model_ok w fl rv dr _ _ grid samps injs E n ni vals sites pops zd vt Ninj Nobs Tobs s Dm Dp PG PI HT HC Hzd Hvt).
Qed.
End End.

Lemma assoc_in_dict {A} k (v : A) d : NoDup (map fst d) -> In (k, v) d -> assoc k d = Ok v.
Proof. intros H Hi. apply in_assoc; auto. Qed.
Lemma sections {C} (import : string -> string -> result C) d r p : NoDup (map fst d) -> parse import (YMap d) r = Ok p ->
  (exists m, In ("models", m) d /\ construct_model_and_prior_dicts import m r = Ok (p_reader p)) /\
  (forall k dflt v, In (k, dflt, v) [("label", YStr "label", p_label p); ("outdir", YStr "./", p_outdir p); ("data", YMap [], p_data p);
                                     ("sampler", YMap [], p_sampler p); ("likelihood", YMap [], p_likelihood p)] ->
     In (k, v) d \/ (~ In k (map fst d) /\ v = dflt)).
Proof.
  intros ND H. unfold parse in H. destruct (assoc "models" d) as [m|] eqn:Em; cbn [rbind] in H; [|discriminate].
  destruct (construct_model_and_prior_dicts import m r) as [r'|] eqn:Ec; cbn [rbind] in H; [|discriminate]. injection H as <-. cbn.
  split; [exists m; split; [apply assoc_in; exact Em|exact Ec]|].
  assert (P : forall k dflt, In (k, pop k dflt d) d \/ (~ In k (map fst d) /\ pop k dflt d = dflt)).
  { intros k dflt. unfold pop. destruct (assoc k d) as [v|e] eqn:E; [left; apply assoc_in; exact E|right]. split; [|reflexivity].
    intros Hi. apply assoc_keys in Hi. destruct Hi as [v Hv]. congruence. }
  intros k dflt v [[= <- <- <-]|[[= <- <- <-]|[[= <- <- <-]|[[= <- <- <-]|[[= <- <- <-]|[]]]]]]; apply P.
Qed.
Lemma assoc_missing {A} k (d : dict A) : ~ In k (keys d) -> assoc k d = Err KeyError.
Proof. induction d as [|[a b] d IH]; cbn; [reflexivity|]. intros N. destruct (String.eqb_spec k a); [subst; tauto|]. apply IH. tauto. Qed.
Lemma no_models {C} (import : string -> string -> result C) d r : ~ In "models" (map fst d) -> parse import (YMap d) r = Err KeyError.
Proof.
  intros N. unfold parse. destruct (assoc "models" d) as [m|e] eqn:E; [exfalso; apply N; apply assoc_in in E; apply (in_map fst) in E; exact E|].
  rewrite (assoc_missing _ _ N) in E. injection E as <-. reflexivity.
Qed.
Lemma python_file_only {C} (import : string -> string -> result C) yml r path : has "python_file" yml -> sub "python_file" yml = YStr path ->
  exists r', construct_model_and_prior_dicts import yml r = Ok r' /\ assoc "file_path" (r_models r') = Ok (EIid path) /\
    (forall k, k <> "file_path" -> assoc k (r_models r') = assoc k (r_models r)) /\ r_priors r' = r_priors r /\ r_sampling r' = r_sampling r.
Proof.
  intros H S. destruct yml as [| | | | |d]; try (cbn in H; contradiction). unfold construct_model_and_prior_dicts. cbn [yin rbind].
  assert (M : mem "python_file" d = true) by (apply mem_keys; exact H). rewrite M. cbn [yget]. apply assoc_keys in H. destruct H as [v Hv]. cbn in S. cbn [entries] in Hv. rewrite Hv in *. subst v. cbn [rbind].
  eexists. split; [reflexivity|]. cbn [set_model r_models r_priors r_sampling]. split; [apply assoc_dset_same|]. split; [|auto].
  intros k Hk. apply assoc_dset_other. congruence.
Qed.
