(** Sub-population fractions recorded with the posterior predictive draws. *)
From Verif Require Export PAnalysisPPC.
From Verif Require Import SpecAnalysis.
Open Scope R_scope.
Open Scope string_scope.
Open Scope list_scope.

Lemma for_index {A} (l : list A) (f : nat * A -> M unit) b s dflt : for_each (combine (seq b (length l)) l) f = (s, Ok tt) ->
  forall i, (i < length l)%nat -> exists sa, f ((b + i)%nat, nth i l dflt) = (sa, Ok tt) /\ incl sa s.
Proof.
  intros H i Hi. apply for_ok with (a := ((b + i)%nat, nth i l dflt)) in H; auto.
  clear H. revert b i Hi. induction l as [|x l IH]; intros b i Hi; cbn [length] in Hi; [lia|]. cbn [length seq combine].
  destruct i; [left; rewrite Nat.add_0_r; reflexivity|]. right. specialize (IH (S b) i ltac:(lia)).
  replace (b + S i)%nat with (S b + i)%nat by lia. exact IH.
Qed.
Lemma get2_fin n rows ev j : (ev < length rows)%nat -> length (nth ev rows []) = n -> (j < n)%nat ->
  get2 (Arr2 n (map (map Fin) rows)) ev j = Fin (nth j (nth ev rows []) 0).
Proof.
  intros H1 H2 H3. unfold get2, get_row, clampi. cbn [a_rows].
  replace (nth (Nat.min ev (length (map (map Fin) rows) - 1)) (map (map Fin) rows) []) with (map Fin (nth ev rows [])).
  - unfold get1, clampi. rewrite map_length, H2, Nat.min_l by lia.
    rewrite (nth_indep _ NaN (Fin 0)) by (rewrite map_length; lia). apply map_nth.
  - rewrite map_length, Nat.min_l by lia. change (@nil num) with (map Fin []). rewrite map_nth. reflexivity.
Qed.

Section Frac.
Variables (a : hl_args) (d : draws) (n : nat) (rows m1 q : list (list R)) (iws im1 iq : list R) (c1 c2 cm : R)
  (ps : list string) (pe : list (string * arr2)) (ij : list (string * list num)).

(** the recorded ratio, whatever the arrays handed over as [indv_weights] hold *)
Lemma ppc_ratio s : ppc_data a n rows m1 q iws im1 iq c1 c2 cm ps pe ij -> marginal_qs a = true ->
  ppc a d (PEOne (Arr2 n (map (enc (logw a)) rows))) (enc (logw a) iws) = (s, Ok tt) ->
  forall ev u, (ev < Nobs a)%nat -> d_obs d ev = Fin u -> 0 <= u < 1 ->
  (exists j, (j < n)%nat /\ 0 < nth j (nth ev rows []) 0 /\ passes c1 c2 cm (nth j (nth ev m1 []) 0) (nth j (nth ev q []) 0)) ->
  exists j, (j < n)%nat /\ passes c1 c2 cm (nth j (nth ev m1 []) 0) (nth j (nth ev q []) 0) /\ 0 < nth j (nth ev rows []) 0 /\
    (forall vs, kept_weights c1 c2 cm (nth ev rows []) (nth ev m1 []) (nth ev q []) vs -> inverse_cdf vs u j) /\
    (forall p, In p ps -> exists pv, assoc p pe = Ok pv /\
      In (Site Deterministic (p ++ "_obs_event_" ++ dec ev)%string (Scal (get2 pv ev j))) s) /\
    forall i, (i < length (indv_weights a))%nat ->
      In (Site Deterministic ("cat_frac_subpop_" ++ dec (S i) ++ "_event_" ++ dec ev)%string
           (Scal (ndiv (get2 (nth i (indv_weights a) (Arr2 0 [])) ev j) (Fin (nth j (nth ev rows []) 0))))) s.
Proof.
  intros (HP & HPE & HIJ & H1 & H2 & H3 & A1 & A2 & A3 & A4 & L1 & L2 & L3 & R1 & R2 & R3 & I1 & I2 & N1 & N2) HM HR ev u Hev HU Bu Ej.
  unfold ppc in HR. rewrite HP, HPE, HIJ in HR.
  assert (EW : (if logw a then Arr2 (a_cols (Arr2 n (map (enc (logw a)) rows))) (map (map nexp) (a_rows (Arr2 n (map (enc (logw a)) rows)))) else Arr2 n (map (enc (logw a)) rows)) = Arr2 n (map (map Fin) rows)).
  { cbn [a_cols a_rows]. rewrite map_map. destruct (logw a) eqn:LW; [|reflexivity].
    apply (f_equal (Arr2 n)). apply map_ext_in. intros r Hr. rewrite Forall_forall in N1. apply (exp_enc true). auto. }
  rewrite EW in HR. clear EW.
  rewrite (exp_enc (logw a) iws N2), A1, A2, A3, A4 in HR. cbn [a_cols a_rows] in HR.
  repeat (apply mbind_ok in HR as (? & ? & ? & HQ & HR & ->); injection HQ as <- <-). cbn [app] in HR |- *.
  match type of HR with for_each _ _ = (?z, _) => rename z into s end. apply for_ok with (a := ev) in HR; [|apply in_seq; lia]. destruct HR as (sa & HR & HI).
  assert (GR : get_row (Arr2 n (map3 (map3 (cut_weight (m1min a) (m2min a) (mmax a))) (map (map Fin) rows) (map (map Fin) m1) (map (map Fin) q))) ev
     = map3 (cut_weight (Fin c1) (Fin c2) (Fin cm)) (map Fin (nth ev rows [])) (map Fin (nth ev m1 [])) (map Fin (nth ev q []))).
  { unfold get_row, clampi. cbn [a_rows].
    assert (LL : length (map3 (map3 (cut_weight (m1min a) (m2min a) (mmax a))) (map (map Fin) rows) (map (map Fin) m1) (map (map Fin) q)) = Nobs a).
    { unfold map3 at 1. rewrite map2_length, combine_length, !map_length. lia. }
    rewrite LL, Nat.min_l by lia. rewrite (map3_nth_row _ _ _ _ _ [] [] []) by (rewrite !map_length; lia).
    rewrite H1, H2, H3. change (@nil num) with (map Fin []). rewrite !map_nth. reflexivity. }
  cbn [a_rows a_cols] in HR. unfold get2 at 2 in HR. rewrite GR, HU in HR.
  assert (LE : length (nth ev rows []) = n /\ length (nth ev m1 []) = n /\ length (nth ev q []) = n).
  { rewrite Forall_forall in R1, R2, R3. repeat split; [apply R1|apply R2|apply R3]; apply nth_In; lia. }
  destruct LE as (LE1 & LE2 & LE3).
  destruct (choice_cut u c1 c2 cm (nth ev rows []) (nth ev m1 []) (nth ev q [])) as (j & EJ & Lj & Pj & Cj & Kj); auto; try lia.
  { rewrite Forall_forall in N1. apply N1. apply nth_In; lia. } { rewrite LE1. auto. }
  rewrite LE1 in Lj. exists j. do 4 (split; auto).
  apply mbind_ok in HR as (sx & [] & sy & HX & HR & ->). rewrite EJ in HX, HR. rewrite HM in HX. cbn [when] in HX.
  split.
  - intros p Hp. apply for_ok with (a := p) in HR; auto. destruct HR as (sp & HR & HI2).
    apply mbind_ok in HR as (s1 & pv & s2 & Q1 & HR & ->). injection Q1 as <- Q1.
    apply mbind_ok in HR as (s3 & [] & s4 & Q2 & HR & ->). injection Q2 as <-.
    exists pv. split; auto. apply HI, in_or_app; right; apply HI2; cbn; auto.
  - intros i Hi. destruct (for_index _ _ _ _ (Arr2 0 []) HX i Hi) as (si & E1 & E2). cbn [fst snd Nat.add] in E1.
    injection E1 as <-. apply HI, in_or_app. left. apply E2. left. f_equal. f_equal. f_equal.
    rewrite map3_cut. unfold get1, clampi. rewrite map_length, cutl_len, LE1, Nat.min_l by lia.
    rewrite (nth_indep _ NaN (Fin 0)) by (rewrite map_length, cutl_len; lia). rewrite map_nth.
    rewrite cutl_nth by lia. rewrite cutR_pass by auto. reflexivity.
Qed.
End Frac.

Lemma ppc_run s r a d n rows iws : posterior_predictive_check a = true ->
  hierarchical_likelihood a d (PEOne (Arr2 n (map (enc (logw a)) rows))) (enc (logw a) iws) = (s, Ok r) ->
  exists sp, ppc a d (PEOne (Arr2 n (map (enc (logw a)) rows))) (enc (logw a) iws) = (sp, Ok tt) /\ incl sp s.
Proof.
  intros HP H. rewrite hl_shape in H. destruct (bad_flags a); [discriminate|].
  destruct (event_part a d _) as [s0 [[[B E] V]|e]]; [|discriminate].
  destruct (detection_efficiency _ _ _) as [[[lm le] vv]|e]; [|discriminate].
  destruct (_ && _)%bool; [discriminate|]. destruct (_ && _)%bool; [discriminate|]. rewrite HP in H. cbn [when] in H.
  destruct (ppc a d _ _) as [sp [[]|e]] eqn:HPP; cbn [fst snd] in H; [|discriminate]. apply (f_equal fst) in H. cbn [fst] in H. subst s.
  exists sp. split; auto. intros x Hx. do 3 (apply in_or_app; right); assumption.
Qed.
Lemma Rlsum_div l t : Rlsum (map (fun x => x / t) l) = Rlsum l / t.
Proof. induction l as [|x l IH]; cbn; [unfold Rdiv; ring|]. rewrite IH. unfold Rdiv. ring. Qed.
Lemma Rlsum_ge_in l x : (forall y, In y l -> 0 <= y) -> In x l -> x <= Rlsum l.
Proof.
  induction l as [|y l IH]; intros H I; [destruct I|]. pose proof (Rlsum_nonneg l (fun y Hy => H y (or_intror Hy))).
  pose proof (H y (or_introl eq_refl)). destruct I as [->|I]; cbn; [lra|]. specialize (IH (fun y Hy => H y (or_intror Hy)) I). lra.
Qed.

Section Recorded.
Variables (s : list site) (r : option num) (a : hl_args) (d : draws) (n : nat) (rows m1 q : list (list R)) (iws im1 iq : list R) (c1 c2 cm : R)
  (ps : list string) (pe : list (string * arr2)) (ij : list (string * list num)) (subs : list (list (list R))).
Hypothesis (HD : ppc_data a n rows m1 q iws im1 iq c1 c2 cm ps pe ij) (HP : posterior_predictive_check a = true) (HM : marginal_qs a = true)
  (H : hierarchical_likelihood a d (PEOne (Arr2 n (map (enc (logw a)) rows))) (enc (logw a) iws) = (s, Ok r))
  (HS : sub_weights (Nobs a) n rows subs).

Lemma hl_fractions : indv_weights a = map (fun w => Arr2 n (map (map Fin) w)) subs ->
  forall ev u, (ev < Nobs a)%nat -> d_obs d ev = Fin u -> 0 <= u < 1 ->
  (exists j, (j < n)%nat /\ 0 < nth j (nth ev rows []) 0 /\ passes c1 c2 cm (nth j (nth ev m1 []) 0) (nth j (nth ev q []) 0)) ->
  exists j fs, (j < n)%nat /\ (forall vs, kept_weights c1 c2 cm (nth ev rows []) (nth ev m1 []) (nth ev q []) vs -> inverse_cdf vs u j) /\
    (forall p, In p ps -> exists pv, assoc p pe = Ok pv /\
      In (Site Deterministic (p ++ "_obs_event_" ++ dec ev)%string (Scal (get2 pv ev j))) s) /\
    length fs = length subs /\ Forall (fun f => 0 <= f <= 1) fs /\ Rlsum fs = 1 /\
    forall i, (i < length subs)%nat ->
      nth i fs 0 = nth j (nth ev (nth i subs []) []) 0 / nth j (nth ev rows []) 0 /\
      In (Site Deterministic ("cat_frac_subpop_" ++ dec (S i) ++ "_event_" ++ dec ev)%string (Scal (Fin (nth i fs 0)))) s.
Proof.
  intros HI ev u Hev HU Bu Ej. destruct (ppc_run s r a d n rows iws HP H) as (sp & HPP & IN).
  destruct (ppc_ratio a d n rows m1 q iws im1 iq c1 c2 cm ps pe ij sp HD HM HPP ev u Hev HU Bu Ej) as (j & J1 & J2 & J3 & J4 & J5 & J6).
  destruct HS as [HS1 HS2]. set (t := nth j (nth ev rows []) 0) in *.
  exists j, (map (fun w => nth j (nth ev w []) 0 / t) subs).
  assert (POS : forall w, In w subs -> 0 <= nth j (nth ev w []) 0).
  { intros w Hw. rewrite Forall_forall in HS1. destruct (HS1 w Hw) as [W1 W2]. rewrite Forall_forall in W2.
    destruct (W2 (nth ev w [])) as [W3 W4]; [apply nth_In; lia|]. unfold nonneg_list in W4. rewrite Forall_forall in W4.
    apply W4, nth_In. lia. }
  specialize (HS2 ev j Hev J1). fold t in HS2.
  split; auto. split; auto. split. { intros p Hp. destruct (J5 p Hp) as (pv & E1 & E2). exists pv. auto. }
  split; [apply map_length|]. split.
  { apply Forall_forall. intros f Hf. apply in_map_iff in Hf as (w & <- & Hw). specialize (POS w Hw) as Pw.
    assert (nth j (nth ev w []) 0 <= t).
    { rewrite HS2. apply Rlsum_ge_in. { intros y Hy. apply in_map_iff in Hy as (v & <- & Hv). auto. } apply in_map_iff. eauto. }
    split. { apply Rmult_le_pos; auto. left. apply Rinv_0_lt_compat. auto. }
    apply Rmult_le_reg_r with t; auto. unfold Rdiv. rewrite Rmult_assoc, Rinv_l by lra. lra. }
  split. { rewrite <- (map_map (fun w => nth j (nth ev w []) 0) (fun x => x / t)), Rlsum_div, <- HS2. field. lra. }
  intros i Hi. assert (EN : nth i (map (fun w => nth j (nth ev w []) 0 / t) subs) 0 = nth j (nth ev (nth i subs []) []) 0 / t).
  { rewrite (nth_indep _ 0 ((fun w => nth j (nth ev w []) 0 / t) [])) by (rewrite map_length; auto).
    exact (map_nth (fun w => nth j (nth ev w []) 0 / t) subs [] i). }
  split; [exact EN|]. rewrite EN. specialize (J6 i). rewrite HI, map_length in J6. specialize (J6 Hi).
  change (Arr2 0 []) with (Arr2 0 (map (map Fin) [])) in J6.
  rewrite (nth_indep _ _ (Arr2 n (map (map Fin) []))) in J6 by (rewrite map_length; auto).
  rewrite (map_nth (fun w => Arr2 n (map (map Fin) w))) in J6.
  rewrite Forall_forall in HS1. destruct (HS1 (nth i subs [])) as [W1 W2]; [apply nth_In; auto|].
  rewrite Forall_forall in W2. destruct (W2 (nth ev (nth i subs []) [])) as [W3 W4]; [apply nth_In; lia|].
  rewrite get2_fin in J6 by (auto; lia). apply IN. rewrite ndiv_fin in J6 by lra. exact J6.
Qed.

(** log weights of the sub-populations: the ratio mixes logarithms and plain weights *)
Lemma hl_log_fractions : logw a = true -> indv_weights a = map (fun w => Arr2 n (map (enc true) w)) subs ->
  Forall (Forall (Forall (fun w => 0 < w < 1))) subs ->
  forall ev u, (ev < Nobs a)%nat -> d_obs d ev = Fin u -> 0 <= u < 1 ->
  (exists j, (j < n)%nat /\ 0 < nth j (nth ev rows []) 0 /\ passes c1 c2 cm (nth j (nth ev m1 []) 0) (nth j (nth ev q []) 0)) ->
  forall i, (i < length subs)%nat -> exists f, f < 0 /\
    In (Site Deterministic ("cat_frac_subpop_" ++ dec (S i) ++ "_event_" ++ dec ev)%string (Scal (Fin f))) s.
Proof.
  intros _ HI HL ev u Hev HU Bu Ej i Hi. destruct (ppc_run s r a d n rows iws HP H) as (sp & HPP & IN).
  destruct (ppc_ratio a d n rows m1 q iws im1 iq c1 c2 cm ps pe ij sp HD HM HPP ev u Hev HU Bu Ej) as (j & J1 & J2 & J3 & J4 & J5 & J6).
  destruct HS as [HS1 HS2]. specialize (J6 i). rewrite HI, map_length in J6. specialize (J6 Hi).
  rewrite (nth_indep _ _ (Arr2 n (map (enc true) []))) in J6 by (rewrite map_length; auto).
  rewrite (map_nth (fun w => Arr2 n (map (enc true) w))) in J6.
  rewrite Forall_forall in HS1. destruct (HS1 (nth i subs [])) as [W1 W2]; [apply nth_In; auto|].
  rewrite Forall_forall in W2. destruct (W2 (nth ev (nth i subs []) [])) as [W3 W4]; [apply nth_In; lia|].
  assert (LW : Forall (Forall (fun w => 0 < w < 1)) (nth i subs [])). { rewrite Forall_forall in HL. apply HL, nth_In; auto. }
  assert (EE : map (enc true) (nth i subs []) = map (map Fin) (map (map ln) (nth i subs []))).
  { rewrite map_map. apply map_ext_in. intros row Hr. rewrite Forall_forall in LW. specialize (LW row Hr). unfold enc. rewrite map_map.
    apply map_ext_in. intros w Hw. rewrite Forall_forall in LW. specialize (LW w Hw). apply nlog_fin. lra. }
  rewrite EE in J6. assert (EV : nth ev (map (map ln) (nth i subs [])) [] = map ln (nth ev (nth i subs []) [])) by (change (@nil R) with (map ln []) at 1; apply map_nth).
  rewrite get2_fin in J6 by (rewrite ?EV, ?map_length; auto; lia). rewrite EV in J6. rewrite ndiv_fin in J6 by lra.
  eexists. split; [|apply IN; exact J6].
  rewrite (nth_indep _ 0 (ln 0)) by (rewrite map_length; lia). rewrite map_nth.
  rewrite Forall_forall in LW. specialize (LW (nth ev (nth i subs []) [])).
  assert (B : 0 < nth j (nth ev (nth i subs []) []) 0 < 1).
  { assert (Q : In (nth ev (nth i subs []) []) (nth i subs [])) by (apply nth_In; lia). specialize (LW Q). rewrite Forall_forall in LW. apply LW, nth_In. lia. }
  pose proof (ln_increasing _ _ (proj1 B) (proj2 B)) as LI. rewrite ln_1 in LI.
  unfold Rdiv. assert (0 < / nth j (nth ev rows []) 0) by (apply Rinv_0_lt_compat; auto). nra.
Qed.
End Recorded.
