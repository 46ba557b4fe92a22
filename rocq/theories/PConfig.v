(** Proofs about the shipped configuration. *)
From Coquelicot Require Import Coquelicot.
From Verif Require Import PConstruct PNumpyro PNumpyroValue PAnalysisCuts PAnalysisPPC PPeak ArrFacts PSplinePert PropsPipeline.
From Verif Require Import SpecConstruct SpecConfig.
Open Scope R_scope.
Open Scope string_scope.
Open Scope list_scope.

Definition config_models : dict (model_entry cls) :=
  [("mass_1", ESimple KPowerlaw ["alpha"; "minimum"; "maximum"]); ("mass_ratio", ESimple KPowerlaw ["alpha"; "minimum"; "maximum"]); ("redshift", ESimple KPowerlawRedshift ["lamb"; "maximum"])].
Definition raw x := PRaw (YNum (Fin x)).
Definition config_priors : dict (prior_entry cls) :=
  [("mass_1_alpha", EPrior (KNumpyro "Normal") [("loc", raw 0); ("scale", raw 3)]); ("mass_1_minimum", EPrior (KNumpyro "Uniform") [("low", raw 2); ("high", raw 10)]);
   ("mass_1_maximum", EPrior (KNumpyro "Uniform") [("low", raw 50); ("high", raw 100)]); ("mass_ratio_alpha", EPrior (KNumpyro "Normal") [("loc", raw 0); ("scale", raw 3)]);
   ("mass_ratio_minimum", EConst (raw (2/100))); ("mass_ratio_maximum", EConst (raw 1)); ("redshift_lamb", EPrior (KNumpyro "Normal") [("loc", raw 0); ("scale", raw 3)]); ("redshift_maximum", EConst (raw (23/10)))].
Lemma config_parsed : exists p, parse package_import config_yml new_reader = Ok p /\ r_models (p_reader p) = config_models /\ r_priors (p_reader p) = config_priors /\ r_sampling (p_reader p) = map fst config_sites /\
  p_likelihood p = YMap [] /\ p_sampler p = sampler_yml /\ p_data p = data_yml.
Proof.
  exists (Parsed (Reader config_models config_priors (map fst config_sites)) (YStr "Truncated_PowerlawRedshift_MDC_smoothed_power_law_0") (YStr "outdir") data_yml sampler_yml (YMap [])).
  split; [lazy -[Rdiv]; reflexivity|]. repeat split.
Qed.
Lemma config_constructed {D} : exists s0 : cstate D, construct_hierarchical_model config_models config_priors = Ok (map Fin config_zs, s0).
Proof.
  unfold construct_hierarchical_model. cbn [mem config_models String.eqb]. replace (mem "redshift" config_models) with true by reflexivity.
  unfold z_grid. replace (assoc "redshift_maximum" config_priors) with (@Ok (prior_entry cls) (EConst (raw (23/10)))) by reflexivity. cbn [rbind raw].
  rewrite nlinspace_fin by (apply (Nat.leb_le 2 1000); reflexivity). eexists. reflexivity.
Qed.
Definition config_vals (rv : string -> sval) : dict hval :=
  [("mass_1_alpha", HDraw (rv "mass_1_alpha")); ("mass_1_minimum", HDraw (rv "mass_1_minimum")); ("mass_1_maximum", HDraw (rv "mass_1_maximum")); ("mass_ratio_alpha", HDraw (rv "mass_ratio_alpha"));
   ("mass_ratio_minimum", HConst (raw (2/100))); ("mass_ratio_maximum", HConst (raw 1)); ("redshift_lamb", HDraw (rv "redshift_lamb")); ("redshift_maximum", HConst (raw (23/10)))].
Lemma config_given w rv : (forall n p1 x1 p2 x2, w_prior w (KNumpyro n) [(p1, raw x1); (p2, raw x2)] = Ok (numpyro_prior n p1 x1 p2 x2)) ->
  priors_give w rv config_priors (config_vals rv) config_sites.
Proof.
  intros H. unfold config_priors, config_vals, config_sites.
  change (priors_give w rv config_priors (config_vals rv) ([("mass_1_alpha", numpyro_prior "Normal" "loc" 0 "scale" 3)] ++ [("mass_1_minimum", numpyro_prior "Uniform" "low" 2 "high" 10)] ++
    [("mass_1_maximum", numpyro_prior "Uniform" "low" 50 "high" 100)] ++ [("mass_ratio_alpha", numpyro_prior "Normal" "loc" 0 "scale" 3)] ++ [] ++ [] ++ [("redshift_lamb", numpyro_prior "Normal" "loc" 0 "scale" 3)] ++ [] ++ [])).
  repeat (apply pg_cons; [cbn [prior_gives]; try (eexists; split; [apply H|]; split; reflexivity); split; reflexivity|]). constructor.
Qed.
Lemma models_dict : is_dict config_models.
Proof. unfold is_dict. cbn. repeat constructor; cbn; intuition discriminate. Qed.
Lemma priors_dict : is_dict config_priors.
Proof. unfold is_dict. cbn. repeat constructor; cbn; intuition discriminate. Qed.

(** ** as shipped *)
Lemma no_grid c kw : ~ takes_grid c -> (forall n, c <> KNumpyro n) -> In "grid" (keys kw) -> call c kw = Err TypeError.
Proof.
  intros HG HN HI. unfold call. assert (A : accepts c (keys kw) = false).
  { unfold accepts, takes_grid in *. destruct (signature c) as (r, o). cbn [fst snd] in HG. apply Bool.andb_false_iff. right. apply Bool.not_true_iff_false. intros F. rewrite forallb_forall in F.
    apply F in HI. apply existsb_exists in HI as (x & Hx & E). apply String.eqb_eq in E as <-. auto. }
  rewrite A. destruct c; try reflexivity. exfalso. exact (HN name eq_refl).
Qed.
Lemma config_fails ext fl rv dr samps injs ninj nobs tobs s : (forall k, exists x, rv k = Scal x) ->
  snd (call_model (package ext) fl config_models config_priors (map Fin config_zs) rv dr samps injs ninj nobs tobs s) = raise TypeError.
Proof.
  intros HS. unfold call_model.
  destruct (sample_priors_ok (package ext) rv config_priors (config_vals rv) config_sites (config_given (package ext) rv ltac:(reflexivity)) priors_dict (CState (c_hyper s) (c_pops s) [])) as (h & (u & E1) & HV & _).
  unfold population. erewrite s_bind_ok by exact E1. cbn [c_pops c_sites app] in *.
  set (s1 := {| c_hyper := h; c_pops := c_pops s; c_sites := config_sites |}).
  destruct (HS "mass_1_alpha") as (x1 & X1). destruct (HS "mass_1_minimum") as (x2 & X2). destruct (HS "mass_1_maximum") as (x3 & X3). destruct (HS "mass_ratio_alpha") as (x4 & X4).
  assert (B1 : forall st, c_hyper st = h -> forall iid, build_entry (package ext) (map Fin config_zs) "mass_1" (ESimple KPowerlaw ["alpha"; "minimum"; "maximum"]) iid st = (CState h (dset "mass_1" (Some (DPowerlaw x1 x2 x3)) (c_pops st)) (c_sites st), Ok iid)).
  { intros st Hst iid. rewrite (build_entry_ok _ (config_vals rv) _ _ _ (DPowerlaw x1 x2 x3)); [rewrite Hst; reflexivity| rewrite Hst; auto |].
    exists [("alpha", HDraw (rv "mass_1_alpha")); ("minimum", HDraw (rv "mass_1_minimum")); ("maximum", HDraw (rv "mass_1_maximum"))]. split; [split; [repeat constructor; cbn; intuition discriminate|repeat constructor]|].
    rewrite X1, X2, X3. reflexivity. }
  assert (B2 : forall st, c_hyper st = h -> forall iid, build_entry (package ext) (map Fin config_zs) "mass_ratio" (ESimple KPowerlaw ["alpha"; "minimum"; "maximum"]) iid st = (CState h (dset "mass_ratio" (Some (DPowerlaw x4 (Fin (2/100)) (Fin 1))) (c_pops st)) (c_sites st), Ok iid)).
  { intros st Hst iid. rewrite (build_entry_ok _ (config_vals rv) _ _ _ (DPowerlaw x4 (Fin (2/100)) (Fin 1))); [rewrite Hst; reflexivity| rewrite Hst; auto |].
    exists [("alpha", HDraw (rv "mass_ratio_alpha")); ("minimum", HConst (raw (2/100))); ("maximum", HConst (raw 1))]. split; [split; [repeat constructor; cbn; intuition discriminate|repeat constructor]|].
    rewrite X4. reflexivity. }
  assert (B3 : forall st, c_hyper st = h -> forall iid, exists st', build_entry (package ext) (map Fin config_zs) "redshift" (ESimple KPowerlawRedshift ["lamb"; "maximum"]) iid st = (st', Err TypeError)).
  { intros st Hst iid. cbn [build_entry]. 
    assert (L : lookups "redshift" ["lamb"; "maximum"] st = (st, Ok [("lamb", HDraw (rv "redshift_lamb")); ("maximum", HConst (raw (23/10)))])).
    { apply (lookups_ok (config_vals rv)); [rewrite Hst; auto|]. split; [repeat constructor; cbn; intuition discriminate|repeat constructor]. }
    erewrite s_bind_ok by exact L. cbn [String.eqb Ascii.eqb Bool.eqb dset]. eexists. apply s_bind_err. unfold s_lift. apply f_equal.
    apply (no_grid KPowerlawRedshift); [unfold takes_grid; cbn; intuition discriminate|discriminate|]. cbn. tauto. }
  unfold config_models at 1. cbn [build_entries].
  destruct (B3 (CState h (dset "mass_ratio" (Some (DPowerlaw x4 (Fin (2/100)) (Fin 1))) (dset "mass_1" (Some (DPowerlaw x1 x2 x3)) (c_pops s))) config_sites) eq_refl []) as (st' & B3').
  erewrite s_bind_err; [reflexivity|]. erewrite s_bind_ok by (apply (B1 s1); reflexivity). erewrite s_bind_ok by (apply B2; reflexivity). cbn [c_pops c_sites s1]. apply s_bind_err. exact B3'.
Qed.
Lemma redshift_needs_grid ext (models : dict (model_entry cls)) priors fl rv dr grid samps injs ninj nobs tobs s c ps : is_dict models -> reachable models priors s ->
  In ("redshift", ESimple c ps) models -> ~ takes_grid c -> (forall n, c <> KNumpyro n) -> raises (snd (call_model (package ext) fl models priors grid rv dr samps injs ninj nobs tobs s)).
Proof.
  intros HM HR HI HG HN. apply call_raises; auto. apply population_fails_build. eapply entries_fail; eauto using incl_refl.
  intros iid. cbn [build_entry]. apply fails_bind_r; [apply lookups_keeps|]. intros kw. apply fails_bind_l. intros st Hst. exists TypeError. cbn.
  apply (no_grid c); auto. apply keys_dset. auto.
Qed.

(** ** the Python file beside it *)
Lemma python_fails ext rv a d samps injs :
  python_model ext rv a d samps injs = (map (fun k => Site Sample k (Scal (rv k))) ["alpha"; "beta"; "mmin"; "mmax"; "lamb"], Err TypeError).
Proof. reflexivity. Qed.

(** ** with a redshift class that takes the grid *)
Lemma nexp_inv v r : nexp v = Fin r -> 0 < r -> v = Fin (ln r).
Proof. destruct v as [x| | |]; cbn; intros [= <-] H; try lra. now rewrite ln_exp. Qed.
Lemma line_pdf_in alpha lo hi x : 0 < lo < hi -> lo <= x <= hi -> line_pdf alpha lo hi x = plnorm alpha lo hi * Rpower x alpha.
Proof.
  intros H Hx. unfold line_pdf. rewrite !Rleb_t by lra. cbn [andb].
  assert (PP := plnorm_pos alpha lo hi H).
  assert (E : RInt (fun t => Rpower t alpha) lo hi = / plnorm alpha lo hi).
  { apply is_RInt_unique. apply (is_RInt_val _ _ _ (/ plnorm alpha lo hi * 1)); [|ring].
    eapply is_RInt_ext; [|apply (is_RInt_scalR _ _ _ _ _ (plnorm_integral alpha lo hi H))].
    intros t _. cbn. field. lra. }
  rewrite E. field. lra.
Qed.
Lemma line_pdf_pos alpha lo hi x : 0 < lo < hi -> 0 < line_pdf alpha lo hi x.
Proof.
  intros H. destruct (Rle_dec lo x) as [H1|H1]; [destruct (Rle_dec x hi) as [H2|H2]|].
  - rewrite line_pdf_in by lra. apply Rmult_lt_0_compat; [apply plnorm_pos; auto|apply exp_pos].
  - unfold line_pdf. rewrite (Rleb_f x hi) by lra. rewrite Bool.andb_false_r. apply exp_pos.
  - unfold line_pdf. rewrite (Rleb_f lo x) by lra. apply exp_pos.
Qed.
Lemma line_log alpha lo hi x : alpha <> -1 -> 0 < lo < hi -> pl_log_prob (Fin alpha) (Fin lo) (Fin hi) (Fin x) = Fin (ln (line_pdf alpha lo hi x)).
Proof.
  intros A H. destruct (Rle_dec lo x) as [H1|H1]; [destruct (Rle_dec x hi) as [H2|H2]|].
  - apply nexp_inv; [|apply line_pdf_pos; auto]. rewrite line_pdf_in by lra. apply pl_log_prob_in; auto; lra.
  - rewrite pl_log_prob_out by lra. unfold line_pdf. rewrite (Rleb_f x hi) by lra. rewrite Bool.andb_false_r, ln_exp. reflexivity.
  - rewrite pl_log_prob_out by lra. unfold line_pdf. rewrite (Rleb_f lo x) by lra. cbn [andb]. rewrite ln_exp. reflexivity.
Qed.
Lemma between_nodes x : forall xs, (2 <= length xs)%nat -> hd 0 xs <= x <= last xs 0 -> exists i, (S i < length xs)%nat /\ nth i xs 0 <= x <= nth (S i) xs 0.
Proof.
  induction xs as [|a [|b r] IH]; intros L H; cbn in L; try lia. cbn [hd] in H. destruct (Rle_dec x b) as [Hb|Hb].
  - exists 0%nat. cbn. split; [lia|lra].
  - destruct r as [|c r]; [cbn in H; lra|]. destruct IH as (i & Hi & Hx); [cbn; lia|split; [cbn; lra|exact (proj2 H)]|]. exists (S i). split; [cbn in *; lia|exact Hx].
Qed.
Lemma broken_line_unique xs ys f g : increasing xs -> (2 <= length xs)%nat -> broken_line xs ys f -> broken_line xs ys g -> forall x, hd 0 xs <= x <= last xs 0 -> f x = g x.
Proof.
  intros HI L HF HG x Hx. destruct (between_nodes x xs L Hx) as (i & Hi & Hxi).
  assert (P : nth i xs 0 < nth (S i) xs 0) by (apply increasing_nth; auto).
  set (a := nth i xs 0) in *. set (b := nth (S i) xs 0) in *. set (t := (x - a) / (b - a)).
  assert (E : x = (1 - t) * a + t * b) by (unfold t; field; lra).
  assert (T : 0 <= t <= 1).
  { split; [apply Rdiv_le_0_compat; lra|]. unfold t. apply Rmult_le_reg_r with (b - a); [lra|]. unfold Rdiv. rewrite Rmult_assoc, Rinv_l by lra. lra. }
  rewrite E. unfold a, b. rewrite HF, HG; auto.
Qed.
Lemma broken_line_node xs ys f i : broken_line xs ys f -> (2 <= length xs)%nat -> (i < length xs)%nat -> f (nth i xs 0) = nth i ys 0.
Proof.
  intros H L Hi. destruct (Nat.eq_dec (S i) (length xs)) as [E|N].
  - destruct i as [|i]; [lia|]. specialize (H i 1 ltac:(lia) ltac:(lra)). replace ((1 - 1) * nth i xs 0 + 1 * nth (S i) xs 0) with (nth (S i) xs 0) in H by ring. rewrite H. ring.
  - specialize (H i 0 ltac:(lia) ltac:(lra)). replace ((1 - 0) * nth i xs 0 + 0 * nth (S i) xs 0) with (nth i xs 0) in H by ring. rewrite H. ring.
Qed.
Lemma broken_line_pos xs ys f : (2 <= length xs)%nat -> length ys = length xs -> (forall y, In y ys -> 0 < y) -> broken_line xs ys f -> increasing xs -> forall x, hd 0 xs <= x <= last xs 0 -> 0 < f x.
Proof.
  intros L LY HY HF HI x Hx. destruct (between_nodes x xs L Hx) as (i & Hi & Hxi).
  assert (P : nth i xs 0 < nth (S i) xs 0) by (apply increasing_nth; auto).
  set (a := nth i xs 0) in *. set (b := nth (S i) xs 0) in *. set (t := (x - a) / (b - a)).
  assert (E : x = (1 - t) * a + t * b) by (unfold t; field; lra).
  assert (T : 0 <= t <= 1).
  { split; [apply Rdiv_le_0_compat; lra|]. unfold t. apply Rmult_le_reg_r with (b - a); [lra|]. unfold Rdiv. rewrite Rmult_assoc, Rinv_l by lra. lra. }
  rewrite E. unfold a, b. rewrite HF by auto. assert (0 < nth i ys 0) by (apply HY, nth_In; lia). assert (0 < nth (S i) ys 0) by (apply HY, nth_In; lia).
  clearbody t. destruct (Req_dec t 0) as [E0|]; [rewrite E0; lra|]. assert (0 < t * nth (S i) ys 0) by (apply Rmult_lt_0_compat; lra). assert (0 <= (1 - t) * nth i ys 0) by (apply Rmult_le_pos; lra). lra.
Qed.
Lemma zs_len : length config_zs = 1000%nat. Proof. apply rlinspace_length. Qed.
Lemma zs_two : (2 <= length config_zs)%nat. Proof. rewrite zs_len. apply (Nat.leb_le 2 1000). reflexivity. Qed.
Lemma lo_pos : 0 < / 10 ^ 9. Proof. apply Rinv_0_lt_compat, pow_lt. lra. Qed.
Lemma lo_small : / 10 ^ 9 < 23/10. Proof. apply Rle_lt_trans with 1; [|lra]. rewrite <- Rinv_1. apply Rinv_le_contravar; [lra|]. apply pow_R1_Rle. lra. Qed.
Lemma zs_inc : increasing config_zs. Proof. apply rlinspace_increasing, lo_small. Qed.
Lemma zs_in z : In z config_zs -> / 10 ^ 9 <= z <= 23/10. Proof. apply rlinspace_range. left. apply lo_small. Qed.
Lemma zs_hd : hd 0 config_zs = / 10 ^ 9.
Proof. pose proof zs_two as L. assert (E : hd 0 config_zs = nth 0 config_zs 0) by (destruct config_zs; reflexivity). rewrite E. unfold config_zs. apply PSplinePert.rlinspace_first. apply (Nat.leb_le 1 1000); reflexivity. Qed.
Lemma zs_last : last config_zs 0 = 23/10.
Proof.
  rewrite PNumpyroValue.last_of by (intros E; pose proof zs_len as L; rewrite E in L; discriminate L). rewrite zs_len. apply (PSplinePert.rlinspace_last _ _ 1000), PSplinePert.two_thousand.
Qed.

Lemma config_redshift dVcdz v V lamb : (forall z, In z config_zs -> dVcdz (Fin z) = Fin (v z) /\ 0 < v z) -> broken_line config_zs (map v config_zs) V ->
  exists d, make_plz (Fin lamb) (Fin (23/10)) (map Fin config_zs) (map dVcdz (map Fin config_zs)) = Ok d /\
    forall z, / 10 ^ 9 <= z -> 0 < config_z V lamb z /\ plz_log_prob d (Fin z) = Fin (ln (config_z V lamb z)).
Proof.
  intros HV HB. assert (E : map dVcdz (map Fin config_zs) = map Fin (map v config_zs)) by (rewrite !map_map; apply map_ext_in; intros z Hz; apply HV; auto). rewrite E.
  assert (PV : forall y, In y (map v config_zs) -> 0 < y) by (intros y Hy; apply in_map_iff in Hy as (z & <- & Hz); apply HV; auto).
  assert (LV : length (map v config_zs) = length config_zs) by apply map_length.
  destruct (PNumpyroValue.redshift_density lamb (23/10) config_zs (map v config_zs)) as (d & V' & ED & HB' & T & HI & HO); auto.
  - apply zs_inc.
  - intros z Hz. apply zs_in in Hz. pose proof lo_pos. lra.
  - apply zs_two.
  - intros y Hy. left. auto.
  - exists (nth 0 (map v config_zs) 0). assert (I : In (nth 0 (map v config_zs) 0) (map v config_zs)) by (apply nth_In; rewrite LV; pose proof zs_two; lia). auto.
  - cbv zeta in *. exists d. split; auto. intros z Hz. unfold config_z. destruct (Rle_dec z (23/10)) as [Hm|Hm].
    + rewrite Rleb_t by auto. assert (RG : hd 0 config_zs <= z <= last config_zs 0) by (rewrite zs_hd, zs_last; lra).
      assert (ET : map2 (fun v z => v * Rpower (1 + z) (lamb - 1)) (map v config_zs) config_zs = map (fun z => V z * Rpower (1 + z) (lamb - 1)) config_zs).
      { assert (NE : forall i, (i < length config_zs)%nat -> V (nth i config_zs 0) = v (nth i config_zs 0)).
        { intros i Hi. rewrite (broken_line_node _ _ _ i HB zs_two Hi). rewrite (nth_indep _ 0 (v 0)) by (rewrite LV; auto). apply map_nth. }
        assert (M : forall (l : list R), map2 (fun v z => v * Rpower (1 + z) (lamb - 1)) (map v l) l = map (fun z => v z * Rpower (1 + z) (lamb - 1)) l) by (induction l as [|x l IH]; cbn; [reflexivity|now rewrite IH]).
        rewrite M. apply map_ext_in. intros x Hx. apply (In_nth _ _ 0) in Hx as (i & Hi & <-). rewrite NE; auto. }
      rewrite ET in *. fold (scaled_on config_zs (fun z => V z * Rpower (1 + z) (lamb - 1)) z) in *.
      assert (P : 0 < V z) by (apply (broken_line_pos config_zs (map v config_zs)); auto using zs_two, zs_inc).
      assert (PS : 0 < scaled_on config_zs (fun z => V z * Rpower (1 + z) (lamb - 1)) z) by (unfold scaled_on; apply Rdiv_lt_0_compat; auto; apply Rmult_lt_0_compat; auto; apply exp_pos).
      split; auto. apply nexp_inv; auto. rewrite HI by auto. unfold scaled_on. rewrite (broken_line_unique _ _ V' V zs_inc zs_two HB' HB z RG). reflexivity.
    + rewrite Rleb_f by lra. split; [apply exp_pos|]. rewrite HO by lra. rewrite ln_exp. reflexivity.
Qed.
Lemma log_likelihood_of_weights a d n events found N w : categorical a = false -> logw a = true -> (0 < n)%nat -> events <> [] -> Nobs a = length events -> found <> [] -> INR (length found) < N ->
  total_inj a = CFloat (Fin N) -> surveyed_hypervolume a <> None -> bad_flags a = false -> Forall (fun e => length e = n) events ->
  (forall b, In b (concat events ++ found) -> 0 < w b) -> cuts_pass a n w events found N ->
  factors (fst (hierarchical_likelihood a d (PEOne (Arr2 n (map (map (fun b => Fin (ln (w b)))) events))) (map (fun b => Fin (ln (w b))) found))) =
  (Site Factor "log_likelihood" (Scal (Fin (log_likelihood_of a w events found N))) :: nil).
Proof.
  intros K1 K2 K3 K4 K5 K6 K7 K8 K9 K10 HN HP [HC1 HC2]. unfold log_likelihood_of. cbv zeta. rewrite <- K5 in *.
  rewrite <- (map_map (map w) (fun r => ln (mean r))).
  assert (EN : forall l, (forall b, In b l -> 0 < w b) -> map (fun b => Fin (ln (w b))) l = enc true (map w l)).
  { intros l H. unfold enc. rewrite map_map. apply map_ext_in. intros b Hb. rewrite nlog_fin; auto. }
  assert (PE : forall e b, In e events -> In b e -> 0 < w b) by (intros e b He Hb; apply HP, in_or_app; left; apply in_concat; eauto).
  assert (ER : map (map (fun b => Fin (ln (w b)))) events = map (enc true) (map (map w) events)).
  { rewrite map_map. apply map_ext_in. intros e He. apply EN. eauto. }
  rewrite ER, EN by (intros; apply HP, in_or_app; auto). set (rows := map (map w) events) in *. set (ws := map w found) in *.
  pose proof (hl_value a d n N rows ws) as HLV. rewrite K2 in HLV.
  assert (WN : forall l, (forall b, In b l -> 0 < w b) -> nonneg_list (map w l)).
  { intros l H. apply Forall_forall. intros x Hx. apply in_map_iff in Hx as (b & <- & Hb). left. auto. }
  assert (SP : forall l, l <> [] -> (forall b, In b l -> 0 < w b) -> 0 < Rlsum (map w l)).
  { intros l NE H. apply PAnalysisPPC.Rlsum_pos_ex; [pose proof (WN l H) as W; intros x Hx; unfold nonneg_list in W; rewrite Forall_forall in W; auto|].
    destruct l as [|b l]; [congruence|]. exists (w b). split; [left; auto|apply H; left; auto]. }
  apply HLV; auto. unfold value_hyps, good_rows. repeat match goal with |- _ /\ _ => split end; auto.
  - apply Forall_forall. intros r Hr. unfold rows in Hr. apply in_map_iff in Hr as (e & <- & He). rewrite Forall_forall in HN. split; [rewrite map_length; auto|].
    split; [apply WN; eauto|apply SP; eauto]. intros ->. specialize (HN [] He). cbn in HN. lia.
  - unfold rows. destruct events; [congruence|discriminate].
  - unfold rows. rewrite map_length. auto.
  - apply WN. intros; apply HP, in_or_app; auto.
  - apply SP; auto. intros; apply HP, in_or_app; auto.
  - unfold ws. rewrite map_length. auto.
Qed.
Lemma with_grid_prior ext dVcdz n p1 x1 p2 x2 : w_prior (with_grid ext dVcdz) (KNumpyro n) [(p1, raw x1); (p2, raw x2)] = Ok (numpyro_prior n p1 x1 p2 x2).
Proof. reflexivity. Qed.
Lemma config_tables_shape pe inj n events found : config_tables pe inj n events found ->
  Forall (has_table (length events) n pe) ("prior" :: keys config_models) /\ Forall (has_column (length found) inj) ("prior" :: keys config_models).
Proof.
  intros [HN HT]. assert (A : forall c f, In (c, f) [("mass_1", b_m1); ("mass_ratio", b_q); ("redshift", b_z); ("prior", b_prior)] -> has_table (length events) n pe c /\ has_column (length found) inj c).
  { intros c f H. destruct (HT c f H) as [A B]. split.
    - exists (Arr2 n (map (map (fun b => Fin (f b))) events)). cbn [a_cols a_rows]. rewrite map_length. repeat split; auto. apply Forall_forall. intros r Hr. apply in_map_iff in Hr as (e & <- & He).
      rewrite map_length. rewrite Forall_forall in HN. auto.
    - exists (map (fun b => Fin (f b)) found). split; auto. apply map_length. }
  split; repeat constructor; eapply A; cbn; eauto 10.
Qed.
Lemma config_value ext dVcdz v V fl rv dr pe inj n events found N tobs s alpha mmin mmax beta lamb : config_draws rv alpha mmin mmax beta lamb ->
  0 < mmin < mmax -> alpha <> -1 -> beta <> -1 -> (forall z, In z config_zs -> dVcdz (Fin z) = Fin (v z) /\ 0 < v z) -> broken_line config_zs (map v config_zs) V ->
  config_tables pe inj n events found -> (forall b, In b (concat events ++ found) -> / 10 ^ 9 <= b_z b /\ 0 < b_prior b) ->
  (0 < n)%nat -> events <> [] -> found <> [] -> INR (length found) < N -> (f_var fl = true -> f_marg fl = false /\ f_neff fl = false) ->
  cuts_pass (flagged fl N (length events)) n (config_weight V alpha mmin mmax beta lamb) events found N ->
  let out := call_model (with_grid ext dVcdz) fl config_models config_priors (map Fin config_zs) rv dr pe inj (CFloat (Fin N)) (length events) tobs s in
  c_sites (fst out) = config_sites /\
  factors (fst (snd out)) = (Site Factor "log_likelihood" (Scal (Fin (log_likelihood_of (flagged fl N (length events)) (config_weight V alpha mmin mmax beta lamb) events found N))) :: nil).
Proof.
  intros (D1 & D2 & D3 & D4 & D5) HM HA HB HV HL HT HZ K3 K4 HF HN HFL HC. cbv zeta.
  destruct (config_redshift dVcdz v V lamb HV HL) as (zd & EZ & LZ).
  destruct (config_tables_shape _ _ _ _ _ HT) as [S1 S2]. destruct HT as [HE HT].
  set (pops := [("mass_1", DPowerlaw (Fin alpha) (Fin mmin) (Fin mmax)); ("mass_ratio", DPowerlaw (Fin beta) (Fin (2/100)) (Fin 1)); ("redshift", DRedshift zd)]).
  assert (PIS : population_is (with_grid ext dVcdz) (config_vals rv) (map Fin config_zs) config_models pops).
  { unfold population_is, config_models, pops. repeat constructor.
    - exists [("alpha", HDraw (rv "mass_1_alpha")); ("minimum", HDraw (rv "mass_1_minimum")); ("maximum", HDraw (rv "mass_1_maximum"))]. split; [split; [repeat constructor; cbn; intuition discriminate|repeat constructor]|].
      rewrite D1, D2, D3. reflexivity.
    - exists [("alpha", HDraw (rv "mass_ratio_alpha")); ("minimum", HConst (raw (2/100))); ("maximum", HConst (raw 1))]. split; [split; [repeat constructor; cbn; intuition discriminate|repeat constructor]|].
      rewrite D4. reflexivity.
    - exists [("lamb", HDraw (rv "redshift_lamb")); ("maximum", HConst (raw (23/10)))]. split; [split; [repeat constructor; cbn; intuition discriminate|repeat constructor]|].
      change (String.eqb (fst ("redshift", ESimple KPowerlawRedshift ["lamb"; "maximum"])) "redshift") with true. cbv iota. split; [cbn; intuition discriminate|].
      rewrite D5. set (zs := map Fin config_zs) in *. clearbody zs. cbn -[make_plz]. rewrite EZ. reflexivity. }
  destruct (call_model_ok (with_grid ext dVcdz) fl rv dr config_models config_priors (map Fin config_zs) pe inj (length events) n (length found) (config_vals rv) config_sites pops (DRedshift zd) (z_norm zd)
    (CFloat (Fin N)) (length events) tobs s models_dict priors_dict (config_given _ rv (with_grid_prior ext dVcdz)) PIS S1 S2 eq_refl eq_refl) as [Q1 Q2].
  split; auto. rewrite Q2.
  set (w := config_weight V alpha mmin mmax beta lamb) in *.
  assert (WP : forall b, In b (concat events ++ found) -> 0 < w b).
  { intros b Hb. destruct (HZ b Hb) as [Z1 Z2]. unfold w, config_weight. apply Rdiv_lt_0_compat; auto. apply Rmult_lt_0_compat; [apply Rmult_lt_0_compat; apply line_pdf_pos; lra|apply LZ; auto]. }
  assert (LW : forall b x, In b (concat events ++ found) -> x "mass_1" = Fin (b_m1 b) -> x "mass_ratio" = Fin (b_q b) -> x "redshift" = Fin (b_z b) -> x "prior" = Fin (b_prior b) ->
    log_weight (with_grid ext dVcdz) pops x = Fin (ln (w b))).
  { intros b x Hb X1 X2 X3 X4. destruct (HZ b Hb) as [Z1 Z2]. destruct (LZ (b_z b) Z1) as [ZP ZL]. unfold log_weight, pops. cbn [map fst snd with_grid w_logp package log_prob_of]. rewrite X1, X2, X3, X4, ZL.
    rewrite !line_log by (auto; lra). rewrite nlog_fin by auto.
    assert (P1 := line_pdf_pos alpha mmin mmax (b_m1 b) HM). assert (P2 := line_pdf_pos beta (2/100) 1 (b_q b) ltac:(lra)).
    assert (EW : forall x y z t, 0 < x -> 0 < y -> 0 < z -> 0 < t -> ln (x * y * z / t) = ln x + ln y + ln z - ln t).
    { intros x' y z t Hx Hy Hz Ht. unfold Rdiv. assert (0 < x' * y) by (apply Rmult_lt_0_compat; auto). assert (0 < x' * y * z) by (apply Rmult_lt_0_compat; auto).
      rewrite ln_mult by (auto using Rinv_0_lt_compat). rewrite ln_mult by auto. rewrite ln_mult by auto. rewrite ln_Rinv by auto. ring. }
    change (w b) with (line_pdf alpha mmin mmax (b_m1 b) * line_pdf beta (2/100) 1 (b_q b) * config_z V lamb (b_z b) / b_prior b). rewrite EW by auto.
    cbn. apply (f_equal Fin). ring. }
  set (b0 := SpecFit.Binary 0 0 0 0 0 0 0 0).
  assert (EI : weights_of_injections (with_grid ext dVcdz) pops inj (length found) = map (fun b => Fin (ln (w b))) found).
  { rewrite (by_index _ found b0). unfold weights_of_injections. apply map_ext_in. intros j Hj. apply in_seq in Hj.
    assert (C : forall c f, In (c, f) [("mass_1", b_m1); ("mass_ratio", b_q); ("redshift", b_z); ("prior", b_prior)] -> at1 inj c j = Fin (f (nth j found b0))).
    { intros c f H. unfold at1. rewrite (proj2 (HT c f H)). rewrite (nth_indep _ NaN (Fin (f b0))) by (rewrite map_length; lia). apply (map_nth (fun b => Fin (f b))). }
    apply LW; [apply in_or_app; right; apply nth_In; lia| | | |]; apply C; cbn; tauto. }
  assert (ES : weights_of_samples (with_grid ext dVcdz) pops pe (length events) n = Arr2 n (map (map (fun b => Fin (ln (w b)))) events)).
  { unfold weights_of_samples. f_equal. rewrite (by_index _ events []). apply map_ext_in. intros i Hi. apply in_seq in Hi.
    assert (IE : In (nth i events []) events) by (apply nth_In; lia). assert (LE : length (nth i events []) = n) by (rewrite Forall_forall in HE; auto).
    rewrite (by_index _ (nth i events []) b0), LE. apply map_ext_in. intros j Hj. apply in_seq in Hj.
    assert (C : forall c f, In (c, f) [("mass_1", b_m1); ("mass_ratio", b_q); ("redshift", b_z); ("prior", b_prior)] -> at2 pe c i j = Fin (f (nth j (nth i events []) b0))).
    { intros c f H. unfold at2. rewrite (proj1 (HT c f H)). cbn [a_rows]. change (@nil num) with (map (fun b => Fin (f b)) []). rewrite (map_nth (map (fun b => Fin (f b)))).
      rewrite (nth_indep _ NaN (Fin (f b0))) by (rewrite map_length; lia). apply (map_nth (fun b => Fin (f b))). }
    apply LW; [apply in_or_app; left; apply in_concat; exists (nth i events []); split; auto; apply nth_In; lia| | | |]; apply C; cbn; tauto. }
  rewrite EI, ES.
  rewrite (log_likelihood_of_weights _ dr n events found N w); auto; [discriminate|].
  - unfold bad_flags. cbn. destruct (f_var fl); auto. destruct (HFL eq_refl) as [-> ->]. reflexivity.
Qed.
Lemma config_repaired : forall ext dVcdz v V fl rv dr pe inj n events found N tobs alpha mmin mmax beta lamb,
  config_draws rv alpha mmin mmax beta lamb -> 0 < mmin < mmax -> alpha <> -1 -> beta <> -1 ->
  (forall z, In z config_zs -> dVcdz (Fin z) = Fin (v z) /\ 0 < v z) -> broken_line config_zs (map v config_zs) V ->
  config_tables pe inj n events found -> (forall b, In b (concat events ++ found) -> / 10 ^ 9 <= b_z b /\ 0 < b_prior b) ->
  (0 < n)%nat -> events <> [] -> found <> [] -> INR (length found) < N -> (f_var fl = true -> f_marg fl = false /\ f_neff fl = false) ->
  let w := config_weight V alpha mmin mmax beta lamb in let flags := flagged fl N (length events) in
  cuts_pass flags n w events found N ->
  exists p grid (s0 : cstate pdist), parse package_import config_yml new_reader = Ok p /\ r_sampling (p_reader p) = map fst config_sites /\
    construct_hierarchical_model (r_models (p_reader p)) (r_priors (p_reader p)) = Ok (grid, s0) /\
    forall s, reachable (r_models (p_reader p)) (r_priors (p_reader p)) s ->
      let out := call_model (with_grid ext dVcdz) fl (r_models (p_reader p)) (r_priors (p_reader p)) grid rv dr pe inj (CFloat (Fin N)) (length events) tobs s in
      c_sites (fst out) = config_sites /\
      factors (fst (snd out)) = (Site Factor "log_likelihood" (Scal (Fin (log_likelihood_of flags w events found N))) :: nil).
Proof.
  intros. destruct config_parsed as (p & E1 & E2 & E3 & E4 & _). destruct (@config_constructed pdist) as (s0 & E5). exists p, (map Fin config_zs), s0. rewrite E2, E3. split; auto. split; auto. split; auto. intros s _.
  apply (config_value ext dVcdz v V fl rv dr pe inj n events found N tobs s alpha mmin mmax beta lamb); auto.
Qed.
Lemma config_broken : forall ext fl rv dr pe inj ninj nobs tobs, (forall k, exists x, rv k = Scal x) ->
  exists p grid (s0 : cstate pdist), parse package_import config_yml new_reader = Ok p /\ construct_hierarchical_model (r_models (p_reader p)) (r_priors (p_reader p)) = Ok (grid, s0) /\
    forall s, reachable (r_models (p_reader p)) (r_priors (p_reader p)) s ->
      snd (call_model (package ext) fl (r_models (p_reader p)) (r_priors (p_reader p)) grid rv dr pe inj ninj nobs tobs s) = raise TypeError.
Proof.
  intros. destruct config_parsed as (p & E1 & E2 & E3 & _). destruct (@config_constructed pdist) as (s0 & E5). exists p, (map Fin config_zs), s0. rewrite E2, E3. split; auto. split; auto. intros s _. apply config_fails; auto.
Qed.
Lemma redshift_class : forall ext models priors fl rv dr grid pe inj ninj nobs tobs s c ps, is_dict models -> reachable models priors s ->
  In ("redshift", ESimple c ps) models -> c <> KBSplineDistribution -> (forall name, c <> KNumpyro name) ->
  raises (snd (call_model (package ext) fl models priors grid rv dr pe inj ninj nobs tobs s)).
Proof. intros. eapply redshift_needs_grid; eauto. unfold takes_grid. destruct c; try congruence; cbn; intuition discriminate. Qed.
Lemma map_nth_const (l : list R) i : (i < length l)%nat -> nth i (map (fun _ => 1) l) 0 = 1.
Proof. intros H. rewrite (nth_indep _ 0 1) by (rewrite map_length; auto). apply (map_nth (fun _ => 1) l 1). Qed.
