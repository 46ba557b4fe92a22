(** Posterior predictive draws. *)
From Verif Require Export PAnalysisInv Spec.
Open Scope R_scope.
Open Scope string_scope.
Open Scope list_scope.

Lemma mbind_ok {A B} (m : M A) (f : A -> M B) s b : mbind m f = (s, Ok b) ->
  exists s1 a s2, m = (s1, Ok a) /\ f a = (s2, Ok b) /\ s = s1 ++ s2.
Proof.
  unfold mbind. destruct m as [s1 [a|e]]; [|discriminate]. destruct (f a) as [s2 r2] eqn:E. intros H. injection H as <- ->. eauto 6.
Qed.
Lemma for_ok {A} (l : list A) f s : for_each l f = (s, Ok tt) -> forall a, In a l -> exists sa, f a = (sa, Ok tt) /\ incl sa s.
Proof.
  revert s. induction l as [|b l IH]; intros s H a; [cbn; tauto|]. cbn [for_each] in H. apply mbind_ok in H as (s1 & [] & s2 & H1 & H2 & ->).
  intros [->|Ha].
  - exists s1. split; auto. apply incl_appl, incl_refl.
  - destruct (IH s2 H2 a Ha) as (sa & E & I). exists sa. split; auto. apply incl_appr. auto.
Qed.

(** ** random.choice picks an index of positive probability *)
Lemma ncumsum_last acc p : p <> [] -> last (ncumsum (Fin acc) (map Fin p)) NaN = Fin (acc + Rlsum p).
Proof.
  revert acc. induction p as [|x p IH]; [congruence|]. intros acc _. destruct p as [|y p].
  - cbn. f_equal. ring.
  - specialize (IH (acc + x) ltac:(discriminate)). cbn [map ncumsum] in *. rewrite nadd_fin. cbn [last] in *.
    rewrite IH. f_equal. cbn [Rlsum]. ring.
Qed.
Lemma search_pos acc p r : acc < r -> r <= acc + Rlsum p ->
  exists j, searchsorted (ncumsum (Fin acc) (map Fin p)) (Fin r) = j /\ (j < length p)%nat /\ 0 < nth j p 0 /\
    acc + Rlsum (firstn j p) < r <= acc + Rlsum (firstn (S j) p).
Proof.
  revert acc. induction p as [|x p IH]; intros acc H1 H2; cbn [Rlsum] in H2; [lra|].
  cbn [map ncumsum searchsorted]. rewrite nadd_fin. cbn [sort_le nle]. destruct (Rle_dec r (acc + x)) as [L1|L1].
  - rewrite Rleb_t by auto. exists O. split; auto. cbn. split; [lia|lra].
  - rewrite Rleb_f by lra. destruct (IH (acc + x)) as (j & E & Lj & P & Q); [lra|lra|]. exists (S j). rewrite E. split; auto. split; [cbn; lia|]. split; auto.
    rewrite !firstn_cons. cbn [Rlsum]. lra.
Qed.
Lemma choice_pos u p : 0 <= u < 1 -> 0 < Rlsum p ->
  exists j, random_choice (Fin u) (map Fin p) = j /\ (j < length p)%nat /\ 0 < nth j p 0 /\ inverse_cdf p u j.
Proof.
  intros Hu Hp. unfold random_choice. assert (NE : p <> []) by (intros ->; cbn in Hp; lra).
  rewrite ncumsum_last by auto. rewrite nsub_fin, nmul_fin.
  destruct (search_pos 0 p ((0 + Rlsum p) * (1 - u))) as (j & E & Lj & P & Q); [nra|nra|].
  exists j. rewrite E, map_length. split; [lia|]. split; auto. split; auto. unfold inverse_cdf. lra.
Qed.
Lemma choice_weights u ws : 0 <= u < 1 -> 0 < Rlsum ws ->
  exists j, random_choice (Fin u) (map (fun x => ndiv x (nsum (map Fin ws))) (map Fin ws)) = j /\ (j < length ws)%nat /\ 0 < nth j ws 0 /\ inverse_cdf ws u j.
Proof.
  intros Hu Hp. rewrite nsum_fin.
  assert (E : map (fun x => ndiv x (Fin (Rlsum ws))) (map Fin ws) = map Fin (map (fun w => / Rlsum ws * w) ws)).
  { rewrite !map_map. apply map_ext. intros w. rewrite ndiv_fin by lra. f_equal. unfold Rdiv. ring. }
  rewrite E. destruct (choice_pos u (map (fun w => / Rlsum ws * w) ws) Hu) as (j & EJ & LJ & PJ & QJ).
  { rewrite Rlsum_scal, Rinv_l by lra. lra. }
  rewrite map_length in LJ. exists j. split; auto. split; auto. split.
  - rewrite (nth_indep _ 0 (/ Rlsum ws * 0)) in PJ by (rewrite map_length; auto). rewrite (map_nth (fun w => / Rlsum ws * w)) in PJ.
    pose proof (Rinv_0_lt_compat _ Hp). nra.
  - unfold inverse_cdf in *. rewrite !firstn_map, !Rlsum_scal, Rinv_l in QJ by lra. destruct QJ as [Q1 Q2].
    apply (Rmult_lt_compat_l (Rlsum ws)) in Q1; [|lra]. apply (Rmult_le_compat_l (Rlsum ws)) in Q2; [|lra].
    rewrite <- Rmult_assoc, Rinv_r in Q1 by lra. rewrite <- (Rmult_assoc _ (/ Rlsum ws) (Rlsum (firstn _ _))), Rinv_r in Q2 by lra. lra.
Qed.

(** ** the cut *)
Definition cutR (c1 c2 cm w m q : R) : R := if (Rltb m c1 || Rltb cm m || Rltb (m * q) c2)%bool then 0 else w.
Lemma cut_weight_fin c1 c2 cm w m q : cut_weight (Fin c1) (Fin c2) (Fin cm) (Fin w) (Fin m) (Fin q) = Fin (cutR c1 c2 cm w m q).
Proof. unfold cut_weight, cutR, ngt. cbn [nlt nmul]. destruct (_ || _)%bool; reflexivity. Qed.
Lemma cutR_pos c1 c2 cm w m q : 0 < cutR c1 c2 cm w m q -> passes c1 c2 cm m q /\ 0 < w.
Proof.
  unfold cutR, passes. destruct (Rltb m c1) eqn:E1; cbn [orb]; [lra|]. destruct (Rltb cm m) eqn:E2; cbn [orb]; [lra|].
  destruct (Rltb (m * q) c2) eqn:E3; [lra|]. apply Rltb_false in E1, E2, E3. intros. repeat split; auto.
Qed.
Lemma cutR_pass c1 c2 cm w m q : passes c1 c2 cm m q -> cutR c1 c2 cm w m q = w.
Proof. unfold passes, cutR. intros [[A B] K]. rewrite !Rltb_f by lra. reflexivity. Qed.

Definition cutl (c1 c2 cm : R) (ws ms qs : list R) : list R := map3 (cutR c1 c2 cm) ws ms qs.
Lemma map3_cut c1 c2 cm ws ms qs :
  map3 (cut_weight (Fin c1) (Fin c2) (Fin cm)) (map Fin ws) (map Fin ms) (map Fin qs) = map Fin (cutl c1 c2 cm ws ms qs).
Proof.
  unfold cutl, map3. revert ms qs. induction ws as [|w ws IH]; intros [|m ms] [|q qs]; cbn; auto. rewrite IH, cut_weight_fin. reflexivity.
Qed.
Lemma cutl_len c1 c2 cm ws ms qs : length ms = length ws -> length qs = length ws -> length (cutl c1 c2 cm ws ms qs) = length ws.
Proof. intros H1 H2. unfold cutl, map3. rewrite map2_length, combine_length. lia. Qed.
Lemma cutl_nth c1 c2 cm ws ms qs j : length ms = length ws -> length qs = length ws -> (j < length ws)%nat ->
  nth j (cutl c1 c2 cm ws ms qs) 0 = cutR c1 c2 cm (nth j ws 0) (nth j ms 0) (nth j qs 0).
Proof.
  unfold cutl, map3. revert ms qs j. induction ws as [|w ws IH]; intros [|m ms] [|q qs] j H1 H2 H3; cbn in *; try lia; try discriminate.
  destruct j; auto. apply IH; lia.
Qed.
Lemma Rlsum_pos_ex l : (forall x, In x l -> 0 <= x) -> (exists x, In x l /\ 0 < x) -> 0 < Rlsum l.
Proof.
  intros H (x & Hx & Px). induction l as [|a l IH]; [destruct Hx|]. cbn [Rlsum].
  pose proof (Rlsum_nonneg l (fun y Hy => H y (or_intror Hy))). pose proof (H a (or_introl eq_refl)).
  destruct Hx as [->|Hx]; [lra|]. assert (0 < Rlsum l) by (apply IH; auto; intros; apply H; right; auto). lra.
Qed.
Lemma cutl_sum c1 c2 cm ws ms qs : nonneg_list ws -> length ms = length ws -> length qs = length ws ->
  (exists j, (j < length ws)%nat /\ 0 < nth j ws 0 /\ passes c1 c2 cm (nth j ms 0) (nth j qs 0)) -> 0 < Rlsum (cutl c1 c2 cm ws ms qs).
Proof.
  intros HN H1 H2 (j & Lj & Pj & Cj). apply Rlsum_pos_ex.
  - intros x Hx. apply (In_nth _ _ 0) in Hx as (k & Lk & <-). rewrite cutl_len in Lk by auto. rewrite cutl_nth by auto.
    unfold cutR. destruct (_ || _)%bool; [lra|]. unfold nonneg_list in HN. rewrite Forall_forall in HN. apply HN. apply nth_In. auto.
  - exists (nth j (cutl c1 c2 cm ws ms qs) 0). split; [apply nth_In; rewrite cutl_len; auto|]. rewrite cutl_nth by auto. rewrite cutR_pass; auto.
Qed.
Lemma cutR_fail c1 c2 cm w m q : ~ passes c1 c2 cm m q -> cutR c1 c2 cm w m q = 0.
Proof.
  unfold passes, cutR. intros N. destruct (Rltb m c1) eqn:E1; auto. destruct (Rltb cm m) eqn:E2; auto. destruct (Rltb (m * q) c2) eqn:E3; auto.
  apply Rltb_false in E1, E2, E3. exfalso. apply N. lra.
Qed.
Lemma kept_cutl c1 c2 cm ws ms qs vs : length ms = length ws -> length qs = length ws -> kept_weights c1 c2 cm ws ms qs vs -> vs = cutl c1 c2 cm ws ms qs.
Proof.
  intros H1 H2 [L H]. apply (nth_ext _ _ 0 0); [rewrite cutl_len; auto|]. intros j Hj. rewrite L in Hj. rewrite cutl_nth by auto. destruct (H j Hj) as [P Q].
  assert (D : passes c1 c2 cm (nth j ms 0) (nth j qs 0) \/ ~ passes c1 c2 cm (nth j ms 0) (nth j qs 0)).
  { unfold passes. destruct (Rle_dec c1 (nth j ms 0)); [|right; lra]. destruct (Rle_dec (nth j ms 0) cm); [|right; lra].
    destruct (Rle_dec c2 (nth j ms 0 * nth j qs 0)); [left|right]; lra. }
  destruct D as [D|D]; [rewrite cutR_pass by auto|rewrite cutR_fail by auto]; auto.
Qed.
Lemma choice_cut u c1 c2 cm ws ms qs : 0 <= u < 1 -> nonneg_list ws -> length ms = length ws -> length qs = length ws ->
  (exists j, (j < length ws)%nat /\ 0 < nth j ws 0 /\ passes c1 c2 cm (nth j ms 0) (nth j qs 0)) ->
  let row := map3 (cut_weight (Fin c1) (Fin c2) (Fin cm)) (map Fin ws) (map Fin ms) (map Fin qs) in
  exists j, random_choice (Fin u) (map (fun x => ndiv x (nsum row)) row) = j /\ (j < length ws)%nat /\
    0 < nth j ws 0 /\ passes c1 c2 cm (nth j ms 0) (nth j qs 0) /\ forall vs, kept_weights c1 c2 cm ws ms qs vs -> inverse_cdf vs u j.
Proof.
  intros Hu HN H1 H2 HE row. unfold row. rewrite map3_cut.
  destruct (choice_weights u (cutl c1 c2 cm ws ms qs) Hu (cutl_sum _ _ _ _ _ _ HN H1 H2 HE)) as (j & E & Lj & Pj & Qj).
  rewrite cutl_len in Lj by auto. exists j. rewrite cutl_nth in Pj by auto. apply cutR_pos in Pj as [P1 P2]. do 4 (split; auto).
  intros vs HV. rewrite (kept_cutl c1 c2 cm ws ms qs vs) by auto. exact Qj.
Qed.

Lemma exp_enc (log : bool) ws : nonneg_list ws -> (if log then map nexp (enc log ws) else enc log ws) = map Fin ws.
Proof.
  intros H. destruct log; cbn; auto. rewrite map_map. apply map_ext_in. intros w Hw. apply nexp_nlog.
  unfold nonneg_list in H. rewrite Forall_forall in H. auto.
Qed.
Lemma map3_nth_row {A B K D} (f : A -> B -> K -> D) xs ys zs i dx dy dz dd :
  length ys = length xs -> length zs = length xs -> (i < length xs)%nat ->
  nth i (map3 f xs ys zs) dd = f (nth i xs dx) (nth i ys dy) (nth i zs dz).
Proof.
  unfold map3. revert ys zs i. induction xs as [|x xs IH]; intros [|y ys] [|z zs] i H1 H2 H3; cbn in *; try lia; try discriminate.
  destruct i; auto. apply IH; lia.
Qed.

(** ** C64 *)
Section PPC.
Variables (a : hl_args) (d : draws) (n : nat) (rows m1 q : list (list R)) (iws im1 iq : list R) (c1 c2 cm : R)
  (ps : list string) (pe : list (string * arr2)) (ij : list (string * list num)).

Lemma ppc_draws s : ppc_data a n rows m1 q iws im1 iq c1 c2 cm ps pe ij -> ppc a d (PEOne (Arr2 n (map (enc (logw a)) rows))) (enc (logw a) iws) = (s, Ok tt) ->
  forall ev u v, (ev < Nobs a)%nat -> d_obs d ev = Fin u -> d_pred d ev = Fin v -> 0 <= u < 1 -> 0 <= v < 1 ->
  (exists j, (j < n)%nat /\ 0 < nth j (nth ev rows []) 0 /\ passes c1 c2 cm (nth j (nth ev m1 []) 0) (nth j (nth ev q []) 0)) ->
  (exists k, (k < length iws)%nat /\ 0 < nth k iws 0 /\ passes c1 c2 cm (nth k im1 0) (nth k iq 0)) ->
  exists j k, (j < n)%nat /\ passes c1 c2 cm (nth j (nth ev m1 []) 0) (nth j (nth ev q []) 0) /\
    (k < length iws)%nat /\ passes c1 c2 cm (nth k im1 0) (nth k iq 0) /\
    (forall vs, kept_weights c1 c2 cm (nth ev rows []) (nth ev m1 []) (nth ev q []) vs -> inverse_cdf vs u j) /\
    (forall vs, kept_weights c1 c2 cm iws im1 iq vs -> inverse_cdf vs v k) /\
    forall p, In p ps -> exists pv iv, assoc p pe = Ok pv /\ assoc p ij = Ok iv /\
      In (Site Deterministic (p ++ "_obs_event_" ++ dec ev)%string (Scal (get2 pv ev j))) s /\
      In (Site Deterministic (p ++ "_pred_event_" ++ dec ev)%string (Scal (get1 iv k))) s.
Proof.
  intros (HP & HPE & HIJ & H1 & H2 & H3 & A1 & A2 & A3 & A4 & L1 & L2 & L3 & R1 & R2 & R3 & I1 & I2 & N1 & N2) HR ev u v Hev HU HV Bu Bv Ej Ek.
  unfold ppc in HR. rewrite HP, HPE, HIJ in HR.
  assert (EW : (if logw a then Arr2 (a_cols (Arr2 n (map (enc (logw a)) rows))) (map (map nexp) (a_rows (Arr2 n (map (enc (logw a)) rows)))) else Arr2 n (map (enc (logw a)) rows)) = Arr2 n (map (map Fin) rows)).
  { cbn [a_cols a_rows]. rewrite map_map. destruct (logw a) eqn:LW; [|reflexivity].
    apply (f_equal (Arr2 n)). apply map_ext_in. intros r Hr. rewrite Forall_forall in N1. apply (exp_enc true). auto. }
  rewrite EW in HR. clear EW.
  rewrite (exp_enc (logw a) iws N2), A1, A2, A3, A4 in HR. cbn [a_cols a_rows] in HR.
  repeat (apply mbind_ok in HR as (? & ? & ? & HQ & HR & ->); injection HQ as <- <-). cbn [app] in HR |- *.
  match type of HR with for_each _ _ = (?z, _) => rename z into s end. apply for_ok with (a := ev) in HR; [|apply in_seq; lia]. destruct HR as (sa & HR & HI).
  assert (GR : get_row (Arr2 n (map3 (map3 (cut_weight (m1min a) (m2min a) (mmax a))) (map (map Fin) rows) (map (map Fin) m1) (map (map Fin) q))) ev
     = map3 (cut_weight (Fin c1) (Fin c2) (Fin cm)) (map Fin (nth ev rows [])) (map Fin (nth ev m1 [])) (map Fin (nth ev q []))).
  { unfold get_row, clampi. cbn [a_rows]. 
    assert (LL : length (map3 (map3 (cut_weight (m1min a) (m2min a) (mmax a))) (map (map Fin) rows) (map (map Fin) m1) (map (map Fin) q)) = Nobs a).
    { unfold map3 at 1. rewrite map2_length, combine_length, !map_length. lia. }
    rewrite LL, Nat.min_l by lia. rewrite (map3_nth_row _ _ _ _ _ [] [] []) by (rewrite !map_length; lia).
    rewrite H1, H2, H3. change (@nil num) with (map Fin []). rewrite !map_nth. reflexivity. }
  cbn [a_rows a_cols] in HR. rewrite GR, HU, HV in HR. rewrite H1, H2, H3 in HR.
  assert (LE : length (nth ev rows []) = n /\ length (nth ev m1 []) = n /\ length (nth ev q []) = n).
  { rewrite Forall_forall in R1, R2, R3. repeat split; [apply R1|apply R2|apply R3]; apply nth_In; lia. }
  destruct LE as (LE1 & LE2 & LE3).
  destruct (choice_cut u c1 c2 cm (nth ev rows []) (nth ev m1 []) (nth ev q [])) as (j & EJ & Lj & Pj & Cj & Kj); auto; try lia.
  { rewrite Forall_forall in N1. apply N1. apply nth_In; lia. } { rewrite LE1. auto. }
  destruct (choice_cut v c1 c2 cm iws im1 iq) as (k & EK & Lk & Pk & Ck & Kk); auto; try lia.
  exists j, k. rewrite LE1 in Lj. do 6 (split; auto). intros p Hp.
  apply mbind_ok in HR as (sx & [] & sy & HX & HR & ->). rewrite EK in HR. rewrite EJ in HR.
  apply for_ok with (a := p) in HR; auto. destruct HR as (sp & HR & HI2).
  apply mbind_ok in HR as (s1 & pv & s2 & Q1 & HR & ->). injection Q1 as <- Q1.
  apply mbind_ok in HR as (s3 & [] & s4 & Q2 & HR & ->). injection Q2 as <-.
  apply mbind_ok in HR as (s5 & iv & s6 & Q3 & HR & ->). injection Q3 as <- Q3. injection HR as <-.
  exists pv, iv. split; auto. split; auto. split; apply HI, in_or_app; right; apply HI2; cbn; auto.
Qed.
End PPC.

Lemma hl_ppc s r a d n rows m1 q iws im1 iq c1 c2 cm ps pe ij :
  ppc_data a n rows m1 q iws im1 iq c1 c2 cm ps pe ij -> posterior_predictive_check a = true ->
  hierarchical_likelihood a d (PEOne (Arr2 n (map (enc (logw a)) rows))) (enc (logw a) iws) = (s, Ok r) ->
  forall ev u v, (ev < Nobs a)%nat -> d_obs d ev = Fin u -> d_pred d ev = Fin v -> 0 <= u < 1 -> 0 <= v < 1 ->
  (exists j, (j < n)%nat /\ 0 < nth j (nth ev rows []) 0 /\ passes c1 c2 cm (nth j (nth ev m1 []) 0) (nth j (nth ev q []) 0)) ->
  (exists k, (k < length iws)%nat /\ 0 < nth k iws 0 /\ passes c1 c2 cm (nth k im1 0) (nth k iq 0)) ->
  exists j k, (j < n)%nat /\ passes c1 c2 cm (nth j (nth ev m1 []) 0) (nth j (nth ev q []) 0) /\
    (k < length iws)%nat /\ passes c1 c2 cm (nth k im1 0) (nth k iq 0) /\
    (forall vs, kept_weights c1 c2 cm (nth ev rows []) (nth ev m1 []) (nth ev q []) vs -> inverse_cdf vs u j) /\
    (forall vs, kept_weights c1 c2 cm iws im1 iq vs -> inverse_cdf vs v k) /\
    forall p, In p ps -> exists pv iv, assoc p pe = Ok pv /\ assoc p ij = Ok iv /\
      In (Site Deterministic (p ++ "_obs_event_" ++ dec ev)%string (Scal (get2 pv ev j))) s /\
      In (Site Deterministic (p ++ "_pred_event_" ++ dec ev)%string (Scal (get1 iv k))) s.
Proof.
  intros HD HP H ev u v Hev HU HV Bu Bv Ej Ek. rewrite hl_shape in H. destruct (bad_flags a); [discriminate|].
  destruct (event_part a d _) as [s0 [[[B E] V]|e]]; [|discriminate].
  destruct (detection_efficiency _ _ _) as [[[lm le] vv]|e]; [|discriminate].
  destruct (_ && _)%bool; [discriminate|]. destruct (_ && _)%bool; [discriminate|]. rewrite HP in H. cbn [when] in H.
  destruct (ppc a d _ _) as [sp [[]|e]] eqn:HPP; cbn [fst snd] in H; [|discriminate]. apply (f_equal fst) in H. cbn [fst] in H. subst s.
  destruct (ppc_draws a d n rows m1 q iws im1 iq c1 c2 cm ps pe ij sp HD HPP ev u v Hev HU HV Bu Bv Ej Ek) as (j & k & J1 & J2 & J3 & J4 & J6 & J7 & J5).
  exists j, k. do 6 (split; auto). intros p Hp. destruct (J5 p Hp) as (pv & iv & K1 & K2 & K3 & K4). exists pv, iv.
  split; auto. split; auto. split; do 3 (apply in_or_app; right); assumption.
Qed.

(** an event all of whose samples are cut still gets a draw, its first sample *)
Definition ppc_bad_args : hl_args :=
  HL (CFloat (Fin 10)) 1 (Fin 1) (Some (Fin 1)) false false [] false false false false true
     (Some ["mass_1"; "mass_ratio"])
     (Some [("mass_1", Arr2 1 ((Fin 1 :: nil) :: nil)); ("mass_ratio", Arr2 1 ((Fin 1 :: nil) :: nil))])
     (Some [("mass_1", (Fin 10 :: nil)); ("mass_ratio", (Fin 1 :: nil))]) (Fin 3) (Fin 5) (Fin 100) false.
Lemma ppc_uncut_draw : forall d, exists s r,
  hierarchical_likelihood ppc_bad_args d (PEOne (Arr2 1 ((Fin 1 :: nil) :: nil))) (Fin 1 :: nil) = (s, Ok r) /\
  In (Site Deterministic "mass_1_obs_event_0" (Scal (Fin 1))) s /\ m1min ppc_bad_args = Fin 5.
Proof.
  intros d. rewrite hl_shape. change (bad_flags ppc_bad_args) with false. cbv iota.
  assert (exists B E V, event_part ppc_bad_args d (PEOne (Arr2 1 ((Fin 1 :: nil) :: nil))) = ([], Ok (B, E, V))) as (B & E & V & ->).
  { unfold event_part. cbn [ppc_bad_args categorical logw]. unfold per_event_log_bayes_factors. cbn [a_cols a_rows lift map]. unfold lift. eauto. }
  assert (exists x, detection_efficiency (logw ppc_bad_args) (Fin 1 :: []) (total_inj ppc_bad_args) = Ok x) as [[[lm le] v] ->].
  { unfold detection_efficiency. cbn [ppc_bad_args logw total_inj count_num rbind]. eauto. }
  change (reconstruct_rate ppc_bad_args) with false. change (min_neff_cut ppc_bad_args) with false. change (posterior_predictive_check ppc_bad_args) with true. cbn [andb when].
  assert (EP : exists s, ppc ppc_bad_args d (PEOne (Arr2 1 ((Fin 1 :: []) :: []))) (Fin 1 :: []) = (s, Ok tt) /\ In (Site Deterministic "mass_1_obs_event_0" (Scal (Fin 1))) s).
  { unfold ppc. cbn [ppc_bad_args param_names injdata pedata logw assoc String.eqb Ascii.eqb Bool.eqb a_cols a_rows Nobs seq for_each].
    unfold lift, mbind, when, det, tell, ret. cbn [ppc_bad_args marginal_qs assoc String.eqb Ascii.eqb Bool.eqb for_each app get2 get1 get_row a_rows].
    eexists. split; [reflexivity|]. cbn [In]. left. f_equal.
    unfold get2, get_row, get1, clampi. cbn [a_rows length nth Nat.min Nat.sub]. rewrite Nat.min_0_r. reflexivity. }
  destruct EP as (s & EP & HI).
  rewrite EP. cbn [fst snd]. do 2 eexists. split; [reflexivity|]. split; auto.
  do 3 (apply in_or_app; right); assumption.
Qed.

(** C65: a third sub-population is treated as the second *)
Definition cat_args : hl_args :=
  HL (CFloat (Fin 10)) 1 (Fin 1) (Some (Fin 1)) true false [] false false false false false None None None (Fin 3) (Fin 5) (Fin 100) false.
Lemma hl_categorical_3 : exists ws d s0 B E V, length ws = 3%nat /\ d_qs d = (2%nat :: nil) /\
  event_part cat_args d (PEMany ws) = (s0, Ok (B, E, V)) /\
  forall w2, nth_error ws 2 = Some w2 -> per_event_log_bayes_factors false w2 <> Ok (B, E, V).
Proof.
  exists [Arr2 1 ((Fin 1 :: nil) :: nil); Arr2 1 ((Fin 1 :: nil) :: nil); Arr2 1 ((Fin 2 :: nil) :: nil)].
  exists (Draws (2%nat :: nil) (Fin 1) (fun _ => Fin 0) (fun _ => Fin 0)).
  pose proof (bf_val false 1 ((1 :: []) :: []) Nat.lt_0_1) as G1. pose proof (bf_val false 1 ((2 :: []) :: []) Nat.lt_0_1) as G2.
  do 4 eexists. split; [reflexivity|]. split; [reflexivity|]. split.
  - unfold event_part. cbn [cat_args categorical]. unfold mbind, tell, lift. cbn [app d_qs cat_args logw].
    match goal with |- context [mix_weights ?x ?y ?z] => change (mix_weights x y z) with (Arr2 1 ((Fin 1 :: nil) :: nil)) end. cbn [map enc] in G1. rewrite G1. reflexivity. repeat constructor; cbn; lra.
  - intros w2 H. injection H as <-. cbn [map enc] in G2. rewrite G2 by (repeat constructor; cbn; lra). intros H. injection H as H _.
    revert H. unfold mean. cbn. intros H. apply ln_inj' in H; lra.
Qed.

(** C65 in terms of the recorded Bayes factors *)
Lemma hl_categorical_sites a d w0 w1 inj sites l B : categorical a = true -> run a d (PEMany [w0; w1]) inj sites l ->
  length (d_qs d) = length (a_rows w0) -> length (a_rows w1) = length (a_rows w0) -> a_cols w1 = a_cols w0 ->
  Forall (fun q => (q < 2)%nat) (d_qs d) -> In (Site Deterministic "logBFs" (Vec B)) sites ->
  exists E V, per_event_log_bayes_factors (logw a)
    (Arr2 (a_cols w0) (map (fun i => nth i (a_rows (nth (nth i (d_qs d) O) [w0; w1] w0)) []) (seq 0 (length (d_qs d))))) = Ok (B, E, V).
Proof.
  intros HC HR H1 H2 H3 H4 HB. pose proof (hl_categorical_2 a d w0 w1 HC H1 H2 H3 H4) as G.
  destruct (run_recorded a d _ inj sites l HR) as (s0 & B0 & E & V & lm & le & v & EP & _ & _ & _ & _ & _ & _ & CB & _).
  rewrite EP in G. cbn [snd] in G.
  assert (In (Site Deterministic "logBFs" (Vec B)) (called "logBFs" sites)) as K by (apply filter_In; split; [exact HB|reflexivity]).
  rewrite CB in K. destruct K as [K|[]]. injection K as <-. eauto.
Qed.
Lemma hl_categorical_sites_3 : exists a d ws inj sites l B, categorical a = true /\ length ws = 3%nat /\ d_qs d = (2%nat :: nil) /\
  run a d (PEMany ws) inj sites l /\ In (Site Deterministic "logBFs" (Vec B)) sites /\
  forall w2, nth_error ws 2 = Some w2 -> forall E V, per_event_log_bayes_factors (logw a) w2 <> Ok (B, E, V).
Proof.
  exists cat_args, (Draws (2%nat :: nil) (Fin 1) (fun _ => Fin 0) (fun _ => Fin 0)),
    [Arr2 1 ((Fin 1 :: nil) :: nil); Arr2 1 ((Fin 1 :: nil) :: nil); Arr2 1 ((Fin 2 :: nil) :: nil)], (Fin 1 :: nil).
  set (d := Draws _ _ _ _). set (ws := [_; _; _]).
  pose proof (bf_val false 1 ((1 :: []) :: []) Nat.lt_0_1) as G1. pose proof (bf_val false 1 ((2 :: []) :: []) Nat.lt_0_1) as G2.
  cbn [map enc] in G1, G2. specialize (G1 ltac:(repeat constructor; cbn; lra)). specialize (G2 ltac:(repeat constructor; cbn; lra)).
  assert (EP : event_part cat_args d (PEMany ws) = ([Site Plate "nObs" (IVec [O]); Site Sample "Qs" (IVec [2%nat])], per_event_log_bayes_factors false (Arr2 1 ((Fin 1 :: nil) :: nil)))).
  { unfold event_part, d, ws. cbn [cat_args categorical]. unfold mbind, tell, lift. reflexivity. }
  pose proof (hl_shape cat_args d (PEMany ws) (Fin 1 :: nil)) as HS. rewrite EP, G1 in HS. change (bad_flags cat_args) with false in HS. cbv iota in HS.
  assert (exists x, detection_efficiency (logw cat_args) (Fin 1 :: []) (total_inj cat_args) = Ok x) as [[[lm le] v] DE].
  { unfold detection_efficiency. cbn [cat_args logw total_inj count_num rbind]. eauto. }
  rewrite DE in HS. change (reconstruct_rate cat_args) with false in HS. change (min_neff_cut cat_args) with false in HS. 
  change (posterior_predictive_check cat_args) with false in HS. cbn [andb when fst snd ret] in HS.
  destruct (hl_factors_finite cat_args d (PEMany ws) (Fin 1 :: nil)) as [[x HF]|[_ [e HF]]]; [|rewrite HS in HF; discriminate].
  assert (HI : In (Site Factor "log_likelihood" (Scal (Fin x))) (factors (fst (hierarchical_likelihood cat_args d (PEMany ws) (Fin 1 :: nil))))) by (rewrite HF; left; reflexivity).
  apply filter_In in HI as [HI _].
  destruct (run_recorded cat_args d (PEMany ws) (Fin 1 :: nil) _ _ (conj eq_refl HI)) as (s0 & B & E & V & lm' & le' & v' & EP' & _ & _ & _ & _ & _ & _ & CB & _).
  rewrite EP, G1 in EP'. apply (f_equal snd) in EP'. cbn [snd] in EP'. injection EP' as <- <- <-.
  do 3 eexists. split; [reflexivity|]. split; [reflexivity|]. split; [reflexivity|]. split; [split; [reflexivity|exact HI]|]. split.
  - assert (K : In (Site Deterministic "logBFs" (Vec [Fin (ln (mean (1 :: [])))])) (called "logBFs" (fst (hierarchical_likelihood cat_args d (PEMany ws) (Fin 1 :: nil))))).
    { rewrite CB. left. reflexivity. } apply filter_In in K. exact (proj1 K).
  - intros w2 H. unfold ws in H. cbn [nth_error] in H. injection H as <-. intros E' V'. cbn [cat_args logw]. rewrite G2. intros H. injection H as H _ _.
    revert H. unfold mean. cbn. intros H. apply ln_inj' in H; lra.
Qed.

Ltac rows_ok := cbn; repeat match goal with
  | |- _ /\ _ => split | |- Forall _ _ => constructor | |- nonneg_list _ => unfold nonneg_list
  | |- _ => reflexivity | |- _ => discriminate | |- _ => lra | |- _ => lia | |- _ < Rlsum _ => cbn end.
