(** The hierarchical likelihood: shape of the recorded trace, finiteness, cuts, value. *)
From Coq Require Import Permutation.
From Verif Require Export PAnalysisSums Spec.
Open Scope R_scope.
Open Scope string_scope.
Open Scope list_scope.

(** ** an explicit form of the trace *)
Definition six (B E V : list num) (lm le v : num) : list site :=
  [ Site Deterministic "log_nEff_inj" (Scal le); Site Deterministic "log_nEffs" (Vec E); Site Deterministic "logBFs" (Vec B);
    Site Deterministic "detection_efficiency" (Scal (nexp lm)); Site Deterministic "variance_log_BFs" (Vec V);
    Site Deterministic "variance_log_detection_efficiency" (Scal v) ].
Definition total_vt (a : hl_args) (vt : num) : num := nmul (ndiv vt (Fin (10 ^ 9))) (Tobs a).
Definition the_rate (a : hl_args) (d : draws) (lm vt : num) : num := ndiv (ndiv (d_rate d) (nexp lm)) (total_vt a vt).
Definition rate_sites (a : hl_args) (d : draws) (lm : num) : list site :=
  if reconstruct_rate a then
    match surveyed_hypervolume a with None => [] | Some vt =>
      [ Site Deterministic "surveyed_hypervolume" (Scal (total_vt a vt)); Site Sample "unscaled_rate" (Scal (d_rate d));
        Site Deterministic "rate" (Scal (the_rate a d lm vt)) ] end
  else [].
Definition rate_val (a : hl_args) (d : draws) (lm : num) : option num :=
  if reconstruct_rate a then match surveyed_hypervolume a with None => None | Some vt => Some (the_rate a d lm vt) end else None.
Definition lde (a : hl_args) (lm le : num) : num :=
  let nobs := Fin (INR (Nobs a)) in
  let x := if marginalize_selection a then nsub lm (ndiv (nadd (Fin 3) nobs) (nmul (Fin 2) (nexp le))) else lm in
  if min_neff_cut a then nwhere (nge le (nlog (nmul (Fin 4) nobs))) x PInf else x.
Definition sel_of (nobs x : num) : num :=
  nwhere (match x with PInf | NInf => true | _ => false end) MOSTNEG (nmul (nneg nobs) x).
Definition guard (l : num) : num := nwhere (nisnan l) MOSTNEG (nan_to_num l).
Definition logl0 (a : hl_args) (B : list num) (lm le : num) : num :=
  guard (nadd (sel_of (Fin (INR (Nobs a))) (lde a lm le)) (nsum B)).
Definition minneff (E : list num) : num := match map nan_to_num E with [] => NaN | x :: r => nexp (nminl x r) end.
Definition logl1 (a : hl_args) (B E : list num) (lm le : num) : num :=
  if min_neff_cut a then nwhere (nle (minneff E) (Fin (INR (Nobs a)))) MOSTNEG (logl0 a B lm le) else logl0 a B lm le.
Definition totvar (a : hl_args) (V : list num) (v : num) : num := nadd (nmul (npowi (Fin (INR (Nobs a))) 2) v) (nsum V).
Definition logl2 (a : hl_args) (B E V : list num) (lm le v : num) : num :=
  if max_variance_cut a then nwhere (nle (totvar a V v) (Fin 1)) (logl1 a B E lm le) MOSTNEG else logl1 a B E lm le.

Definition pre_sites (a : hl_args) (d : draws) (B E V : list num) (lm le v : num) : list site :=
  six B E V lm le v ++ rate_sites a d lm ++
  [ Site Deterministic "selection_factor" (Scal (sel_of (Fin (INR (Nobs a))) (lde a lm le)));
    Site Deterministic "sum_logBFs" (Scal (nsum B)); Site Deterministic "log_l" (Scal (logl0 a B lm le)) ].
Definition post_sites (a : hl_args) (B E V : list num) (lm le v : num) : list site :=
  (if min_neff_cut a then (Site Deterministic "neff_less_Nobs" (Scal (logl1 a B E lm le)) :: nil) else []) ++
  (Site Deterministic "variance_log_likelihood" (Scal (totvar a V v)) :: nil) ++
  (if max_variance_cut a then (Site Deterministic "variance_less_1" (Scal (logl2 a B E V lm le v)) :: nil) else []) ++
  (Site Factor "log_likelihood" (Scal (logl2 a B E V lm le v)) :: nil).


Lemma hl_shape a d pe inj :
  hierarchical_likelihood a d pe inj =
  if bad_flags a then ([], Err ValueError) else
  match event_part a d pe with
  | (s0, Err e) => (s0, Err e)
  | (s0, Ok (B, E, V)) =>
    match detection_efficiency (logw a) inj (total_inj a) with
    | Err e => (s0, Err e)
    | Ok (lm, le, v) =>
      if (reconstruct_rate a && match surveyed_hypervolume a with None => true | _ => false end)%bool
      then (s0 ++ six B E V lm le v, Err TypeError)
      else if (min_neff_cut a && match E with [] => true | _ => false end)%bool
      then (s0 ++ pre_sites a d B E V lm le v, Err ValueError)
      else
        let p := when (posterior_predictive_check a) (ppc a d pe inj) in
        (s0 ++ pre_sites a d B E V lm le v ++ post_sites a B E V lm le v ++ fst p,
         match snd p with Ok _ => Ok (rate_val a d lm) | Err e => Err e end)
    end
  end.
Proof.
  unfold hierarchical_likelihood, bad_flags.
  destruct (max_variance_cut a && (marginalize_selection a || min_neff_cut a))%bool eqn:F; [reflexivity|].
  destruct (event_part a d pe) as [s0 [[[B E] V]|e]]; [|reflexivity].
  destruct (detection_efficiency (logw a) inj (total_inj a)) as [[[lm le] v]|e].
  2:{ unfold mbind, lift. cbn. rewrite app_nil_r. reflexivity. }
  unfold pre_sites, post_sites, rate_sites, rate_val, lde, logl2, logl1, minneff, logl0, lde.
  destruct (when (posterior_predictive_check a) (ppc a d pe inj)) as [sp [u|e']];
  destruct (reconstruct_rate a); [destruct (surveyed_hypervolume a) as [vt|]| |destruct (surveyed_hypervolume a) as [vt|]|];
  destruct (marginalize_selection a), (min_neff_cut a), (max_variance_cut a); cbn in F; try discriminate F;
  destruct E as [|e0 E];
  unfold mbind, det, tell, lift, ret, raise; cbn [fst snd app andb orb map]; rewrite ?app_nil_r; reflexivity.
Qed.

Lemma guard_fin l : exists x, guard l = Fin x.
Proof. destruct l; cbn; eauto. Qed.
Lemma logl2_fin a B E V lm le v : exists x, logl2 a B E V lm le v = Fin x.
Proof.
  unfold logl2, logl1, logl0. destruct (guard_fin (nadd (sel_of (Fin (INR (Nobs a))) (lde a lm le)) (nsum B))) as [x ->].
  destruct (max_variance_cut a), (min_neff_cut a); cbn; unfold nwhere; repeat match goal with |- context [if ?b then _ else _] => destruct b end; eauto.
Qed.

(** factors among the sites *)
Lemma factors_app l m : factors (l ++ m) = factors l ++ factors m.
Proof. apply filter_app. Qed.

Lemma nofac_bind {A B} (m : M A) (f : A -> M B) : factors (fst m) = [] -> (forall a, factors (fst (f a)) = []) -> factors (fst (mbind m f)) = [].
Proof.
  intros H1 H2. unfold mbind. destruct m as [s [a|e]]; cbn [fst snd] in *; auto. specialize (H2 a). destruct (f a) as [s' r']. cbn [fst snd] in *.
  rewrite factors_app, H1, H2. reflexivity.
Qed.
Lemma nofac_for {A} (l : list A) f : (forall a, factors (fst (f a)) = []) -> factors (fst (for_each l f)) = [].
Proof. intros H. induction l; cbn; auto. apply nofac_bind; auto. Qed.
Lemma nofac_when b m : factors (fst m) = [] -> factors (fst (when b m)) = [].
Proof. destruct b; auto. Qed.
Lemma ppc_nofac a d pe inj : factors (fst (ppc a d pe inj)) = [].
Proof.
  unfold ppc. destruct (param_names a), (injdata a), (pedata a); auto. destruct pe; auto.
  repeat (apply nofac_bind; [reflexivity|intros ?]). apply nofac_for. intros ev. apply nofac_bind.
  - apply nofac_when, nofac_for. intros; reflexivity.
  - intros _. apply nofac_for. intros p. repeat (apply nofac_bind; [reflexivity|intros ?]). reflexivity.
Qed.
Lemma event_part_nofac a d pe : factors (fst (event_part a d pe)) = [].
Proof.
  unfold event_part. destruct (categorical a).
  - repeat (apply nofac_bind; [reflexivity|intros ?]). destruct pe as [|[|w0 [|w1 ws]]]; reflexivity.
  - destruct pe; reflexivity.
Qed.
Lemma pre_nofac a d B E V lm le v : factors (pre_sites a d B E V lm le v) = [].
Proof. unfold pre_sites, rate_sites. destruct (reconstruct_rate a); [destruct (surveyed_hypervolume a)|]; reflexivity. Qed.
Lemma post_fac a B E V lm le v : factors (post_sites a B E V lm le v) = (Site Factor "log_likelihood" (Scal (logl2 a B E V lm le v)) :: nil).
Proof. unfold post_sites. destruct (min_neff_cut a), (max_variance_cut a); reflexivity. Qed.

Lemma hl_factors_finite a d pe inj :
  (exists x, factors (fst (hierarchical_likelihood a d pe inj)) = (Site Factor "log_likelihood" (Scal (Fin x)) :: nil)) \/
  (factors (fst (hierarchical_likelihood a d pe inj)) = [] /\ exists e, snd (hierarchical_likelihood a d pe inj) = Err e).
Proof.
  rewrite hl_shape. destruct (bad_flags a); [right; cbn; eauto|].
  pose proof (event_part_nofac a d pe) as N0. destruct (event_part a d pe) as [s0 [[[B E] V]|e]]; cbn [fst] in N0; [|right; cbn; eauto].
  destruct (detection_efficiency _ _ _) as [[[lm le] v]|e]; [|right; cbn; eauto].
  destruct (reconstruct_rate a && _)%bool; [right; cbn [fst snd]; rewrite factors_app, N0; split; eauto; reflexivity|].
  destruct (min_neff_cut a && _)%bool; [right; cbn [fst snd]; rewrite factors_app, N0, pre_nofac; split; eauto; reflexivity|].
  left. cbn [fst]. rewrite !factors_app, N0, pre_nofac, post_fac. cbn [app].
  rewrite nofac_when by apply ppc_nofac. destruct (logl2_fin a B E V lm le v) as [x ->]. eauto.
Qed.

(** inversion of a run that records the factor *)

Lemma run_inv a d pe inj sites l : run a d pe inj sites l ->
  exists s0 B E V lm le v, event_part a d pe = (s0, Ok (B, E, V)) /\
    detection_efficiency (logw a) inj (total_inj a) = Ok (lm, le, v) /\
    bad_flags a = false /\ (min_neff_cut a = true -> E <> []) /\
    sites = s0 ++ pre_sites a d B E V lm le v ++ post_sites a B E V lm le v ++
            fst (when (posterior_predictive_check a) (ppc a d pe inj)) /\
    l = logl2 a B E V lm le v.
Proof.
  intros [<- HI]. assert (HF : In (Site Factor "log_likelihood" (Scal l)) (factors (fst (hierarchical_likelihood a d pe inj)))).
  { apply filter_In. auto. }
  clear HI. revert HF. rewrite hl_shape. destruct (bad_flags a); [cbn; tauto|].
  pose proof (event_part_nofac a d pe) as N0. destruct (event_part a d pe) as [s0 [[[B E] V]|e]]; cbn [fst] in N0; [|cbn [fst]; rewrite N0; cbn; tauto].
  destruct (detection_efficiency _ _ _) as [[[lm le] v]|e]; [|cbn [fst]; rewrite N0; cbn; tauto].
  destruct (reconstruct_rate a && _)%bool; [cbn [fst snd]; rewrite factors_app, N0; cbn; tauto|].
  destruct (min_neff_cut a && _)%bool eqn:Q; [cbn [fst snd]; rewrite factors_app, N0, pre_nofac; cbn; tauto|].
  cbn [fst]. rewrite !factors_app, N0, pre_nofac, post_fac. cbn [app]. rewrite nofac_when by apply ppc_nofac. cbn [In].
  intros [HF|[]]. injection HF as <-. exists s0, B, E, V, lm, le, v. repeat split; auto.
  intros HM ->. rewrite HM in Q. discriminate.
Qed.

(** values recorded under a name by one of the plain sites *)
Lemma event_part_names a d pe s : In s (fst (event_part a d pe)) -> s_name s = "nObs" \/ s_name s = "Qs".
Proof.
  unfold event_part. destruct (categorical a).
  - destruct pe as [|[|w0 [|w1 ws]]]; cbn; intuition; subst; cbn; auto.
  - destruct pe; cbn; tauto.
Qed.

