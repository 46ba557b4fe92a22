(** Value, invariances, cuts, rate, categorical branch of the hierarchical likelihood. *)
From Coq Require Import Permutation.
From Verif Require Export PAnalysisNames Spec.
Open Scope R_scope.
Open Scope string_scope.
Open Scope list_scope.

(** ** the predictive check records only names ending in _event_<digits> *)
Lemma all_bind {A B} (P : string -> Prop) (m : M A) (f : A -> M B) :
  (forall n, In n (names (fst m)) -> P n) -> (forall a n, In n (names (fst (f a))) -> P n) -> forall n, In n (names (fst (mbind m f))) -> P n.
Proof.
  intros H1 H2 n. unfold mbind. destruct m as [s [a|e]]; cbn [fst snd] in *; auto.
  specialize (H2 a). destruct (f a) as [s' r']. cbn [fst] in *. rewrite names_app, in_app_iff. intros [|]; auto.
Qed.
Lemma all_for {A} (P : string -> Prop) (l : list A) f : (forall a n, In n (names (fst (f a))) -> P n) -> forall n, In n (names (fst (for_each l f))) -> P n.
Proof.
  intros H. induction l as [|a l IH]; [cbn; tauto|]. cbn [for_each]. intros n. apply all_bind; [apply H|intros _; apply IH].
Qed.
Lemma ppc_evlike a d pe inj n : In n (names (fst (ppc a d pe inj))) -> evlike n = true.
Proof.
  unfold ppc. destruct (param_names a), (injdata a), (pedata a); try (cbn; tauto). destruct pe; [|cbn; tauto]. revert n.
  do 4 (apply all_bind; [cbn; tauto|intros ?]). apply all_for. intros ev. apply all_bind.
  - unfold when. destruct (marginal_qs a); [|cbn; tauto]. apply all_for. intros [i w'] n. cbn [fst snd det tell names map In s_name].
    intros [<-|[]]. apply (ev_name_like ev). exists (L "cat_frac_subpop_" ++ L (dec (S i))). etransitivity; [exact (cat_ev i ev)|]. rewrite <- !app_assoc. reflexivity.
  - intros _. apply all_for. intros p. apply all_bind; [cbn; tauto|intros pv]. apply all_bind.
    + cbn [fst snd det tell names map In s_name]. intros n [<-|[]]. apply (ev_name_like ev). exists (L p ++ L "_obs"). etransitivity; [exact (obs_ev p ev)|]. rewrite <- !app_assoc. reflexivity.
    + intros _. apply all_bind; [cbn; tauto|intros iv]. cbn [fst snd det tell names map In s_name]. intros n [<-|[]]. apply (ev_name_like ev).
      exists (L p ++ L "_pred"). etransitivity; [exact (pred_ev p ev)|]. rewrite <- !app_assoc. reflexivity.
Qed.
Lemma when_ppc_evlike b a d pe inj s : In s (fst (when b (ppc a d pe inj))) -> evlike (s_name s) = true.
Proof. unfold when. destruct b; [|cbn; tauto]. intros H. eapply ppc_evlike. unfold names. apply in_map. eauto. Qed.

(** sites called [n] *)
Lemma called_app n l m : called n (l ++ m) = called n l ++ called n m.
Proof. apply filter_app. Qed.
Lemma called_in n k v l : In (Site k n v) l <-> In (Site k n v) (called n l).
Proof. unfold called. rewrite filter_In. cbn. rewrite String.eqb_refl. tauto. Qed.
Lemma called_none n l : (forall s, In s l -> s_name s <> n) -> called n l = [].
Proof.
  induction l; cbn; auto. intros H. destruct (String.eqb_spec (s_name a) n) as [E|E]. destruct (H a); auto. apply IHl. auto.
Qed.
Lemma called_event n a d pe : n <> "nObs" -> n <> "Qs" -> called n (fst (event_part a d pe)) = [].
Proof. intros H1 H2. apply called_none. intros s Hs E. apply event_part_names in Hs. subst. destruct Hs; congruence. Qed.
Lemma called_ppc n b a d pe inj : evlike n = false -> called n (fst (when b (ppc a d pe inj))) = [].
Proof. intros H. apply called_none. intros s Hs E. apply when_ppc_evlike in Hs. congruence. Qed.

Lemma run_recorded a d pe inj sites l : run a d pe inj sites l ->
  exists s0 B E V lm le v, event_part a d pe = (s0, Ok (B, E, V)) /\
    detection_efficiency (logw a) inj (total_inj a) = Ok (lm, le, v) /\
    bad_flags a = false /\ (min_neff_cut a = true -> E <> []) /\ l = logl2 a B E V lm le v /\
    called "log_nEff_inj" sites = (Site Deterministic "log_nEff_inj" (Scal le) :: nil) /\
    called "log_nEffs" sites = (Site Deterministic "log_nEffs" (Vec E) :: nil) /\
    called "logBFs" sites = (Site Deterministic "logBFs" (Vec B) :: nil) /\
    called "sum_logBFs" sites = (Site Deterministic "sum_logBFs" (Scal (nsum B)) :: nil) /\
    called "log_l" sites = (Site Deterministic "log_l" (Scal (logl0 a B lm le)) :: nil) /\
    called "detection_efficiency" sites = (Site Deterministic "detection_efficiency" (Scal (nexp lm)) :: nil) /\
    called "variance_log_likelihood" sites = (Site Deterministic "variance_log_likelihood" (Scal (totvar a V v)) :: nil).
Proof.
  intros HR. destruct (run_inv _ _ _ _ _ _ HR) as (s0 & B & E & V & lm & le & v & HE & HD & HF & HN & -> & ->).
  exists s0, B, E, V, lm, le, v. do 5 (split; auto).
  assert (S0 : s0 = fst (event_part a d pe)) by (rewrite HE; auto).
  repeat split; rewrite !called_app, S0, called_event, called_ppc by (reflexivity || discriminate);
    unfold pre_sites, post_sites, rate_sites;
    destruct (reconstruct_rate a), (surveyed_hypervolume a), (min_neff_cut a), (max_variance_cut a); reflexivity.
Qed.

(** ** C60: value *)

Lemma nminl_le x l m : nle m x = true -> (forall y, In y l -> nle m y = true) -> nle m (nminl x l) = true.
Proof.
  unfold nminl. revert x. induction l as [|a l IH]; cbn; auto. intros x Hx Hl. apply IH; auto.
  unfold nmin. specialize (Hl a (or_introl eq_refl)). destruct x, a; cbn in *; auto; try discriminate; destruct m; cbn in *; auto; try discriminate; rcases; auto.
Qed.

Lemma nminl_fin x l : nminl (Fin x) (map Fin l) = Fin (fold_left Rmin l x).
Proof.
  unfold nminl. revert x. induction l as [|a l IH]; intros x; auto. cbn [map fold_left]. rewrite <- IH. f_equal.
  unfold nmin, nle, Rmin, Rleb. destruct (Rle_dec x a); reflexivity.
Qed.
Lemma fold_Rmin_gt k x l : k < x -> (forall y, In y l -> k < y) -> k < fold_left Rmin l x.
Proof.
  revert x. induction l as [|a l IH]; cbn; auto. intros x Hx Hl. apply IH; auto. unfold Rmin. destruct (Rle_dec x a); auto.
Qed.
Lemma fold_Rmin_le x l : fold_left Rmin l x <= x /\ (forall y, In y l -> fold_left Rmin l x <= y).
Proof.
  revert x. induction l as [|a l IH]; intros x; cbn; [split; [lra|tauto]|]. destruct (IH (Rmin x a)) as [H1 H2].
  pose proof (Rmin_l x a). pose proof (Rmin_r x a). split; [lra|]. intros y [<-|Hy]; [lra|auto].
Qed.


Lemma value_run a d n N rows inj : value_hyps a n N rows inj ->
  let B := map Fin (map (fun ws => ln (mean ws)) rows) in
  let E := map Fin (map (fun ws => ln (ess ws)) rows) in
  let V := map Fin (map (fun ws => / ess ws - / INR n) rows) in
  factors (fst (hierarchical_likelihood a d (PEOne (Arr2 n (map (enc (logw a)) rows))) (enc (logw a) inj))) =
  (Site Factor "log_likelihood" (Scal (logl2 a B E V (Fin (ln (mc_mu N inj))) (Fin (ln (mc_neff N inj))) (Fin (/ mc_neff N inj - / N)))) :: nil).
Proof.
  intros (HC & [Hn HR] & HNE & HO & HI & HS & HL & HT & HV & HB). cbn zeta.
  pose proof (hl_shape a d (PEOne (Arr2 n (map (enc (logw a)) rows))) (enc (logw a) inj)) as S.
  rewrite HB in S. unfold event_part in S. rewrite HC in S. rewrite bf_val in S by auto. unfold lift in S.
  rewrite HT, de_val in S by auto.
  destruct (reconstruct_rate a && match surveyed_hypervolume a with None => true | _ => false end)%bool eqn:Q1.
  { exfalso. apply andb_prop in Q1 as [Q1 Q2]. apply HV in Q1. destruct (surveyed_hypervolume a); congruence. }
  destruct rows as [|r0 rows]; [congruence|].
  match type of S with context [if (min_neff_cut a && ?m)%bool then _ else _] => replace m with false in S by reflexivity end.
  rewrite andb_false_r in S. rewrite S. cbn [fst]. rewrite !factors_app, pre_nofac, post_fac.
  rewrite nofac_when by apply ppc_nofac. reflexivity.
Qed.

Lemma fac_eq x y : x = y -> (Site Factor "log_likelihood" (Scal x) :: nil) = (Site Factor "log_likelihood" (Scal y) :: nil).
Proof. now intros ->. Qed.
Lemma INR_pos_len {A} (l : list A) : l <> [] -> 1 <= INR (length l).
Proof. destruct l; [congruence|]. intros _. cbn [length]. rewrite S_INR. pose proof (pos_INR (length l)). lra. Qed.

Lemma hl_value a d n N rows inj : value_hyps a n N rows inj ->
  (min_neff_cut a = true -> 4 * INR (Nobs a) <= mc_neff N inj /\ forall ws, In ws rows -> INR (Nobs a) < ess ws) ->
  (max_variance_cut a = true -> INR (Nobs a) ^ 2 * (/ mc_neff N inj - / N) + Rlsum (map (fun ws => / ess ws - / INR n) rows) <= 1) ->
  factors (fst (hierarchical_likelihood a d (PEOne (Arr2 n (map (enc (logw a)) rows))) (enc (logw a) inj))) =
  (Site Factor "log_likelihood" (Scal (Fin (
     Rlsum (map (fun ws => ln (mean ws)) rows) - INR (Nobs a) * ln (mc_mu N inj)
     + (if marginalize_selection a then INR (Nobs a) * (3 + INR (Nobs a)) / (2 * mc_neff N inj) else 0)))) :: nil).
Proof.
  intros H HM HV. rewrite (value_run a d n N rows inj H). destruct H as (HC & [Hn HR] & HNE & HO & HI & HS & HL & HT & HVV & HB).
  apply fac_eq.
  pose proof (INR_pos_len rows HNE) as HK. rewrite <- HO in HK. set (K := INR (Nobs a)) in *.
  pose proof (mc_var_pos N inj HI HS HL) as PV. pose proof (len_pos inj HS) as PL.
  assert (PM : 0 < mc_mu N inj) by (unfold mc_mu; apply Rdiv_lt_0_compat; lra).
  assert (PN : 0 < mc_neff N inj) by (unfold mc_neff; apply Rdiv_lt_0_compat; auto; apply pow_lt; auto).
  set (corr := if marginalize_selection a then K * (3 + K) / (2 * mc_neff N inj) else 0).
  set (x := if marginalize_selection a then ln (mc_mu N inj) - (3 + K) / (2 * mc_neff N inj) else ln (mc_mu N inj)).
  assert (EX : lde a (Fin (ln (mc_mu N inj))) (Fin (ln (mc_neff N inj))) = Fin x).
  { unfold lde. fold K. rewrite nexp_fin, exp_ln, nadd_fin, !nmul_fin, ndiv_fin, nsub_fin by lra.
    rewrite nlog_fin by lra. unfold nge. cbn [nle].
    destruct (min_neff_cut a) eqn:MM.
    - rewrite Rleb_t. unfold x. destruct (marginalize_selection a); reflexivity.
      apply ln_le'; [lra|]. apply HM; auto.
    - unfold x. destruct (marginalize_selection a); reflexivity. }
  assert (E0 : logl0 a (map Fin (map (fun ws => ln (mean ws)) rows)) (Fin (ln (mc_mu N inj))) (Fin (ln (mc_neff N inj))) =
    Fin (Rlsum (map (fun ws => ln (mean ws)) rows) - K * ln (mc_mu N inj) + corr)).
  { unfold logl0. rewrite EX. fold K. cbn [sel_of nwhere]. unfold sel_of. cbn [nwhere]. rewrite nneg_fin, nmul_fin, nsum_fin, nadd_fin. unfold guard. cbn.
    apply (f_equal Fin). unfold x, corr. destruct (marginalize_selection a); [field; lra|ring]. }
  assert (E1 : logl1 a (map Fin (map (fun ws => ln (mean ws)) rows)) (map Fin (map (fun ws => ln (ess ws)) rows)) (Fin (ln (mc_mu N inj))) (Fin (ln (mc_neff N inj))) =
    Fin (Rlsum (map (fun ws => ln (mean ws)) rows) - K * ln (mc_mu N inj) + corr)).
  { unfold logl1. rewrite E0. destruct (min_neff_cut a) eqn:MM; auto. fold K.
    assert (Q : nle (minneff (map Fin (map (fun ws => ln (ess ws)) rows))) (Fin K) = false).
    { unfold minneff. rewrite !map_map. cbn [nan_to_num nan_to_num_gen]. destruct (HM eq_refl) as [_ HM2].
      destruct rows as [|r0 rows]; [congruence|]. cbn [map]. rewrite <- (map_map (fun ws => ln (ess ws)) Fin), nminl_fin, nexp_fin. cbn [nle].
      apply Rleb_f. rewrite <- (exp_ln K) at 1 by lra. apply exp_increasing. apply fold_Rmin_gt.
      - apply ln_increasing; [lra|]. apply HM2. cbn; auto.
      - intros y Hy. apply in_map_iff in Hy as (ws & <- & Hw). apply ln_increasing; [lra|]. apply HM2. cbn; auto. }
    rewrite Q. reflexivity. }
  unfold logl2. rewrite E1. destruct (max_variance_cut a) eqn:MV; auto.
  unfold totvar. fold K. rewrite npowi_fin, nmul_fin, nsum_fin, nadd_fin. cbn [nle]. rewrite Rleb_t by (apply HV; auto). reflexivity.
Qed.

(** rescaling the population density in both sets of weights *)
Lemma mc_mu_scal N c ws : mc_mu N (map (fun w => c * w) ws) = c * mc_mu N ws.
Proof. unfold mc_mu. rewrite Rlsum_scal. unfold Rdiv. ring. Qed.
Lemma mc_neff_scal N c ws : c <> 0 -> mc_neff N (map (fun w => c * w) ws) = mc_neff N ws.
Proof.
  intros Hc. assert (E : mc_var N (map (fun w => c * w) ws) = c ^ 2 * mc_var N ws).
  { unfold mc_var. rewrite mc_mu_scal, sumsq_scal. unfold Rdiv. ring. }
  unfold mc_neff. rewrite E, mc_mu_scal, Rpow_mult_distr. unfold Rdiv. rewrite Rinv_mult.
  assert (c ^ 2 <> 0) by (apply pow_nonzero; auto).
  transitivity ((c ^ 2 * / c ^ 2) * (mc_mu N ws ^ 2 * / mc_var N ws)); [ring|].
  rewrite Rinv_r by auto. ring.
Qed.
Lemma good_rows_scal c n rows : 0 < c -> good_rows n rows -> good_rows n (map (map (fun w => c * w)) rows).
Proof.
  intros Hc [Hn H]. split; auto. rewrite Forall_map. eapply Forall_impl; [|exact H]. intros ws (L1 & A & B).
  rewrite map_length, Rlsum_scal. split; auto. split; [apply nonneg_scal; auto; lra|nra].
Qed.

Lemma hl_rescale a d n N rows inj c : 0 < c -> value_hyps a n N rows inj ->
  (min_neff_cut a = true -> 4 * INR (Nobs a) <= mc_neff N inj) ->
  factors (fst (hierarchical_likelihood a d (PEOne (Arr2 n (map (enc (logw a)) (map (map (fun w => c * w)) rows)))) (enc (logw a) (map (fun w => c * w) inj)))) =
  factors (fst (hierarchical_likelihood a d (PEOne (Arr2 n (map (enc (logw a)) rows))) (enc (logw a) inj))).
Proof.
  intros Hc H HM. assert (H' : value_hyps a n N (map (map (fun w => c * w)) rows) (map (fun w => c * w) inj)).
  { destruct H as (HC & HG & HNE & HO & HI & HS & HL & HT & HV & HB). repeat split; auto.
    - apply HG.
    - apply good_rows_scal; auto.
    - destruct rows; [congruence|discriminate].
    - rewrite map_length; auto.
    - apply nonneg_scal; auto; lra.
    - rewrite Rlsum_scal; nra.
    - rewrite map_length; auto. }
  rewrite (value_run a d n N _ _ H), (value_run a d n N _ _ H').
  apply fac_eq.
  rewrite mc_mu_scal, mc_neff_scal by lra.
  assert (E2 : forall g : R -> R, map (fun ws => g (ess ws)) (map (map (fun w => c * w)) rows) = map (fun ws => g (ess ws)) rows).
  { intros g. rewrite !map_map. apply map_ext. intros ws. rewrite ess_scal by lra. reflexivity. }
  rewrite (E2 ln), (E2 (fun e => / e - / INR n)).
  assert (E1 : map (fun ws => ln (mean ws)) (map (map (fun w => c * w)) rows) = map (fun b => ln c + b) (map (fun ws => ln (mean ws)) rows)).
  { rewrite !map_map. apply map_ext_in. intros ws Hw. destruct H as (_ & [_ HR] & _). rewrite Forall_forall in HR. destruct (HR ws Hw) as (L1 & A & B).
    unfold mean. rewrite map_length, Rlsum_scal. pose proof (len_pos ws B). unfold Rdiv. rewrite Rmult_assoc, ln_mult; auto.
    apply Rdiv_lt_0_compat; auto. }
  rewrite E1. unfold logl2, logl1. 
  assert (E0 : logl0 a (map Fin (map (fun b => ln c + b) (map (fun ws => ln (mean ws)) rows))) (Fin (ln (c * mc_mu N inj))) (Fin (ln (mc_neff N inj))) =
    logl0 a (map Fin (map (fun ws => ln (mean ws)) rows)) (Fin (ln (mc_mu N inj))) (Fin (ln (mc_neff N inj)))).
  { destruct H as (HC & [Hn HR] & HNE & HO & HI & HS & HL & HT & HVV & HB).
    pose proof (mc_var_pos N inj HI HS HL) as PV. pose proof (len_pos inj HS) as PL.
    assert (PM : 0 < mc_mu N inj) by (unfold mc_mu; apply Rdiv_lt_0_compat; lra).
    assert (PN : 0 < mc_neff N inj) by (unfold mc_neff; apply Rdiv_lt_0_compat; auto; apply pow_lt; auto).
    pose proof (INR_pos_len rows HNE) as HK. rewrite <- HO in HK.
    unfold logl0, lde. rewrite nexp_fin, exp_ln, nadd_fin, !nmul_fin, ndiv_fin, !nsub_fin by lra.
    rewrite (nlog_fin (4 * _)) by lra. unfold nge. cbn [nle]. rewrite (ln_mult c (mc_mu N inj)) by auto.
    assert (ES : Rlsum (map (fun b => ln c + b) (map (fun ws => ln (mean ws)) rows)) = INR (Nobs a) * ln c + Rlsum (map (fun ws => ln (mean ws)) rows)).
    { rewrite (Rlsum_plus (fun _ => ln c) (fun b => b)), Rlsum_constf, Rlsum_id, map_length, HO. ring. }
    rewrite !nsum_fin, ES.
    destruct (min_neff_cut a) eqn:MM; [rewrite Rleb_t by (apply ln_le'; [lra|apply HM; auto])|]; destruct (marginalize_selection a);
      unfold sel_of, guard; cbn; apply (f_equal Fin); ring. }
  rewrite E0. reflexivity.
Qed.
