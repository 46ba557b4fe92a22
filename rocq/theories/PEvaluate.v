(** Proofs about the evaluations of a configured run. *)
From Verif Require Import PConstruct PParser PEnd POptions PRun NumFacts.
From Verif Require Import SpecConstruct SpecParser SpecEvaluate.
From Coq Require Import List Lia.
Import ListNotations.
Open Scope R_scope.
Open Scope string_scope.
Open Scope list_scope.

Lemma list_nth_seq (l : list num) n : length l = n -> l = map (fun j => nth j l NaN) (seq 0 n).
Proof. intros <-. rewrite <- (map_id l) at 1. rewrite (map_nth_seq (fun x => x) l NaN). reflexivity. Qed.
Lemma nth_map_in {A B} (g : A -> B) l i d d' : (i < length l)%nat -> nth i (map g l) d = g (nth i l d').
Proof. intros H. rewrite (nth_indep _ _ (g d')) by (rewrite map_length; exact H). apply map_nth. Qed.
Lemma config_keys {C} (import : string -> string -> result C) doc p : wf doc -> ~ has "python_file" (sub "models" doc) -> (forall k s, In (k, s) (entries (sub "models" doc)) -> ~ shares s) ->
  parse import doc new_reader = Ok p -> keys (r_models (p_reader p)) = map fst (entries (sub "models" doc)).
Proof.
  intros W NP NS Hp. set (yml := sub "models" doc) in *.
  assert (R : construct_model_and_prior_dicts import yml new_reader = Ok (p_reader p)).
  { unfold parse in Hp. destruct doc as [| | | | |d]; try discriminate. destruct (assoc "models" d) as [m|] eqn:Em; cbn [rbind] in Hp; [|discriminate].
    destruct (construct_model_and_prior_dicts import m new_reader) as [r|] eqn:Ec; cbn [rbind] in Hp; [|discriminate]. injection Hp as <-. cbn [p_reader].
    unfold yml. cbn. rewrite Em. exact Ec. }
  pose proof (wf_sub "models" _ W) as Wy. fold yml in Wy. pose proof (construct_built import _ _ _ Wy NP R) as B.
  destruct (built_exact import _ _ _ B (wf_nodup _ Wy) NS) as (ms & Em & Fm); [cbn; tauto|]. cbn in Em. unfold keys. rewrite Em. exact (Forall2_keys _ _ _ Fm).
Qed.
Lemma assoc_map_val {A B} (f : A -> B) k d : assoc k (map (fun kv => (fst kv, f (snd kv))) d) = match assoc k d with Ok v => Ok (f v) | Err e => Err e end.
Proof. induction d as [|[k' v] d IH]; [reflexivity|]. cbn [map assoc fst snd]. destruct (String.eqb k k'); auto. Qed.
Lemma columns_ok (d : dict ival) : (forall k v, In (k, v) d -> exists l, v = IArray l) ->
  exists cs, each (fun kv => match snd kv with IArray l => Ok (fst kv, l) | IScalar _ => Err OtherError end) d = Ok cs /\
    forall k l, assoc k d = Ok (IArray l) -> assoc k cs = Ok l.
Proof.
  induction d as [|[k v] d IH]; intros H.
  - exists []. split; [reflexivity|]. discriminate.
  - destruct IH as (cs & E & K); [intros; eapply H; right; eauto|]. destruct (H k v (or_introl eq_refl)) as (l & ->). exists ((k, l) :: cs). cbn [each fst snd rbind]. rewrite E. split; [reflexivity|].
    intros k' l'. cbn [assoc]. destruct (String.eqb k' k); [intros [= <-]; reflexivity|apply K].
Qed.
Lemma sample_fun cat ev p v v' : samples_are cat ev p v -> samples_are cat ev p v' -> v = v'.
Proof. intros (e & A & B) (e' & A' & B'). congruence. Qed.
Lemma samples_list cat ev p v n : samples_are cat ev p v -> length v = n -> v = map (sample_of cat ev p) (seq 0 n).
Proof. intros (e & A & B) L. rewrite (list_nth_seq v n L) at 1. apply map_ext. intros j. unfold sample_of. rewrite A, B. reflexivity. Qed.

Lemma inputs_tables cat inj params n ni r : rectangular cat params n -> injection_columns params ni inj -> NoDup (params ++ "prior" :: nil) -> arrays_of cat inj params r ->
  holds_samples cat params n (model_tables r) /\ exists injs, model_columns r = Ok injs /\ holds_injections inj params ni injs.
Proof.
  intros (NE & HR) HI ND (K1 & K2 & _ & _ & _ & HA). split.
  - intros p Hp. destruct (HA p Hp) as (rows & v & A1 & F & _ & _). exists (Arr2 (length (hd [] rows)) rows). unfold model_tables. rewrite (assoc_map_val (fun rs => Arr2 (length (hd [] rs)) rs)), A1. split; [reflexivity|]. cbn [a_cols a_rows].
    assert (R : rows = map (fun ev => map (sample_of cat ev p) (seq 0 n)) (ct_names cat)).
    { assert (G : forall ev, In ev (ct_names cat) -> exists v, samples_are cat ev p v /\ length v = n) by (intros ev I; apply HR; auto). clear - F G.
      induction F as [|ev row l m H F IH]; [reflexivity|]. cbn [map]. f_equal; [|apply IH; intros; apply G; now right]. destruct (G ev (or_introl eq_refl)) as (v & S & L). rewrite (sample_fun _ _ _ _ _ H S). now apply samples_list. }
    split; [|exact R]. rewrite R. destruct (ct_names cat) as [|ev l]; [congruence|]. cbn [map hd]. now rewrite map_length, seq_length.
  - destruct (columns_ok (in_inj r)) as (cs & E & K).
    + intros k v I. assert (Ik : In k (keys (in_inj r))) by (unfold keys; apply in_map_iff; exists (k, v); auto). assert (Kk : In k (params ++ "prior" :: nil)) by (rewrite <- K2; exact Ik).
      assert (P : k = "prior" \/ In k params) by (apply in_app_iff in Kk as [?|[<-|[]]]; auto). destruct (HA k P) as (_ & v' & _ & _ & A1 & A2). destruct (HI k P) as (_ & _ & l & A3 & _). rewrite A3 in A2. injection A2 as <-.
      rewrite (in_assoc k v (in_inj r)) in A1; [injection A1 as ->; eauto|rewrite K2; exact ND|exact I].
    + exists cs. split; [exact E|]. intros p P. destruct (HA p P) as (_ & v' & _ & _ & A1 & A2). destruct (HI p P) as (_ & _ & l & A3 & L). rewrite A3 in A2. injection A2 as <-. rewrite (K p l A1). f_equal. rewrite (list_nth_seq l ni L) at 1.
      apply map_ext. intros j. unfold injection_of. now rewrite A3.
Qed.

Theorem run_evaluates C D (import : string -> string -> result C) lc li (w : world C D) rv dr doc p zmax decl vals sites pops zd vt section m nf v c
    dc info semi spin cat (f : R) inj t0 t1 n ni :
  let yml := sub "models" doc in let params := map fst (entries yml) in
  let grid := nlinspace (Fin (/ 10 ^ 9)) zmax 1000 in
  wf doc -> ~ has "python_file" yml -> (forall k s, In (k, s) (entries yml) -> ~ shares s) -> NoDup (map fst (declared yml)) ->
  parse import doc new_reader = Ok p ->
  has "redshift" yml -> In ("redshift_maximum", decl) (declared yml) -> has_value decl = true -> sub "value" decl = YNum zmax ->
  values_of import w rv (filter (fun kv => has_prior (snd kv) || has_value (snd kv))%bool (declared yml)) vals sites ->
  Forall2 (fun ks kd => fst ks = fst kd /\ model_of import w vals grid (fst ks) (snd ks) (snd kd)) (entries yml) pops ->
  assoc "redshift" pops = Ok zd -> w_norm w zd = Some vt ->
  likelihood_section doc section -> is_section section ->
  chosen section "marginalize_selection" false m -> chosen section "min_neff_cut" true nf -> chosen section "max_variance_cut" false v -> chosen section "posterior_predictive_check" true c ->
  sub "data" doc = YMap dc -> ~ In "prior" params ->
  spin_model params spin -> assoc "catalog_summary_json" dc = Ok info -> assoc "seminanalytic_injs" dc = Ok semi ->
  lc info spin = Ok cat -> ct_far cat = Fin f -> f <> 0 -> li (ct_injfile cat) (Fin (1 / f)) spin semi = Ok inj -> assoc "total_generated" inj = Ok (IScalar t0) -> assoc "analysis_time" inj = Ok (IScalar t1) ->
  rectangular cat params n -> injection_columns params ni inj ->
  forall s, reachable (r_models (p_reader p)) (r_priors (p_reader p)) s ->
  exists out samps injs, evaluate_run import lc li w rv dr doc s = Ok out /\ c_sites (fst out) = sites /\ holds_samples cat params n samps /\ holds_injections inj params ni injs /\
    snd out = hierarchical_likelihood {| total_inj := CFloat t0; Nobs := length (ct_names cat); Tobs := t1; surveyed_hypervolume := Some vt;
         categorical := false; marginal_qs := false; indv_weights := []; reconstruct_rate := true;
         marginalize_selection := m; min_neff_cut := nf; max_variance_cut := v; posterior_predictive_check := c;
         param_names := Some params; pedata := Some samps; injdata := Some injs; m2min := Fin 2; m1min := Fin 2; mmax := Fin 100; logw := true |} dr
      (PEOne (Arr2 n (map (fun ev => map (fun j => log_weight w pops (fun k => sample_of cat ev k j)) (seq 0 n)) (ct_names cat))))
      (map (fun j => log_weight w pops (fun k => injection_of inj k j)) (seq 0 ni)).
Proof.
  intros yml params grid W NP NS ND Hp Hz Hm Hv Hzm HV HM Hzd Hvt HL HS C1 C2 C3 C4 HD NPr HSp A1 A2 L F NZ I T0 T1 HR HI s Hs.
  pose proof (config_keys import doc p W NP NS Hp) as K. fold yml params in K.
  assert (HIn : has_injections params inj). { intros q P. destruct (HI q P) as (N1 & N2 & l & E & _). eauto. }
  destruct (setup_ok lc li dc info semi params spin cat f inj (IScalar t0) (IScalar t1) n HSp A1 A2 L F NZ I T0 T1 HR HIn) as (r & ES & AR).
  assert (NDp : NoDup (params ++ "prior" :: nil)). { apply (NoDup_Add (Add_app "prior" params [])). rewrite app_nil_r. split; [|exact NPr]. unfold params. apply wf_nodup. apply (wf_sub "models" doc W). }
  destruct (inputs_tables cat inj params n ni r HR HI NDp AR) as (HT & injs & EC & HC).
  assert (Tab : Forall (has_table (length (ct_names cat)) n (model_tables r)) ("prior" :: params)).
  { apply Forall_forall. intros q Hq. destruct (HT q) as (a & E1 & E2 & E3); [destruct Hq; auto|]. exists a. split; [exact E1|]. split; [exact E2|]. rewrite E3, map_length. split; [reflexivity|]. apply Forall_map, Forall_forall. intros ev _. now rewrite map_length, seq_length. }
  assert (Col : Forall (has_column ni injs) ("prior" :: params)).
  { apply Forall_forall. intros q Hq. eexists. split; [apply HC; destruct Hq; auto|]. now rewrite map_length, seq_length. }
  destruct (configured_end import w (Flags m nf v c) rv dr doc p zmax decl (model_tables r) injs (length (ct_names cat)) n ni vals sites pops zd vt (CFloat t0) (length (ct_names cat)) t1 W NP NS ND Hp Hz Hm Hv Hzm HV HM Tab Col Hzd Hvt) as (s0 & E0 & _ & H).
  destruct AR as (_ & _ & R3 & R4 & R5 & _). rewrite T0 in R4. injection R4 as R4. rewrite T1 in R5. injection R5 as R5.
  assert (PD : p_data p = YMap dc).
  { clear - Hp HD. destruct doc as [| | | | |d]; try discriminate. cbn [parse] in Hp. destruct (assoc "models" d) as [mm|]; [|discriminate]. cbn [rbind] in Hp.
    destruct (construct_model_and_prior_dicts _ _ _) as [rr|]; [|discriminate]. cbn [rbind] in Hp. injection Hp as <-. cbn [p_data]. unfold pop. cbn [sub] in HD. destruct (assoc "data" d); [exact HD|discriminate]. }
  eexists. exists (model_tables r), injs. split.
  { unfold evaluate_run, build_from_config. rewrite Hp. cbn [rbind]. rewrite (section_parsed _ _ _ _ Hp HL), (bind_chosen section m nf v c HS C1 C2 C3 C4). cbn [rbind]. rewrite E0. cbn [rbind fst snd].
    rewrite PD, K, ES. cbn [rbind]. rewrite EC. cbn [rbind]. rewrite <- R4, <- R5. cbn [scalar rbind]. reflexivity. }
  rewrite R3. destruct (H s Hs) as (S1 & S2). split; [exact S1|]. split; [exact HT|]. split; [exact HC|]. rewrite S2. cbn [f_marg f_neff f_var f_ppc]. fold yml params.
  assert (Kp : map fst pops = params) by exact (Forall2_keys _ _ _ HM).
  f_equal.
  - f_equal. unfold weights_of_samples. f_equal. rewrite (map_nth_seq _ (ct_names cat) ""). apply map_ext_in. intros i Hi. apply in_seq in Hi. apply map_ext_in. intros j Hj. apply in_seq in Hj.
    assert (X : forall q, q = "prior" \/ In q params -> at2 (model_tables r) q i j = sample_of cat (nth i (ct_names cat) "") q j).
    { intros q Q. destruct (HT q Q) as (a & E1 & _ & E3). unfold at2. rewrite E1, E3. rewrite (nth_map_in _ _ _ _ "") by lia. rewrite (nth_map_in _ _ _ _ 0%nat) by (rewrite seq_length; lia). rewrite seq_nth by lia. reflexivity. }
    unfold log_weight. rewrite (X "prior") by auto. f_equal. f_equal. apply map_ext_in. intros (k & d) Hk. cbn [fst snd]. rewrite X; [reflexivity|]. right. rewrite <- Kp. apply in_map_iff. exists (k, d). auto.
  - unfold weights_of_injections. apply map_ext_in. intros j Hj. apply in_seq in Hj.
    assert (X : forall q, q = "prior" \/ In q params -> at1 injs q j = injection_of inj q j).
    { intros q Q. unfold at1. rewrite (HC q Q). rewrite (nth_map_in _ _ _ _ 0%nat) by (rewrite seq_length; lia). rewrite seq_nth by lia. reflexivity. }
    unfold log_weight. rewrite (X "prior") by auto. f_equal. f_equal. apply map_ext_in. intros (k & d) Hk. cbn [fst snd]. rewrite X; [reflexivity|]. right. rewrite <- Kp. apply in_map_iff. exists (k, d). auto.
Qed.
