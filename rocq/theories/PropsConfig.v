(** Property theorems C120 (the shipped configuration with the package's own classes). *)
From Verif Require Import PConfig PropsFit.
From Verif Require Import SpecParser SpecConstruct SpecPieces SpecFit SpecPeak SpecConfig.
Open Scope R_scope.
Open Scope string_scope.
Open Scope list_scope.

(** C120; partial: with a redshift class that takes the grid; the class of the package does not ([C120_shipped_configuration_refuted]) *)
Theorem C120_with_grid_partial : forall ext dVcdz v V fl rv dr pe inj n events found N tobs alpha mmin mmax beta lamb,
  config_draws rv alpha mmin mmax beta lamb -> 0 < mmin < mmax -> alpha <> -1 -> beta <> -1 ->
  (forall z, In z config_zs -> dVcdz (Fin z) = Fin (v z) /\ 0 < v z) -> broken_line config_zs (map v config_zs) V ->
  config_tables pe inj n events found -> (forall b, In b (concat events ++ found) -> / 10 ^ 9 <= b_z b /\ 0 < b_prior b) ->
  (0 < n)%nat -> events <> [] -> found <> [] -> INR (length found) < N -> (f_var fl = true -> f_marg fl = false /\ f_neff fl = false) ->
  let w := config_weight V alpha mmin mmax beta lamb in let flags := flagged fl N (length events) in
  cuts_pass flags n w events found N ->
  exists p grid (s0 : cstate pdist), parse package_import config_yml new_reader = Ok p /\ r_sampling (p_reader p) = map fst config_sites /\
    construct_hierarchical_model (r_models (p_reader p)) (r_priors (p_reader p)) = Ok (grid, s0) /\
    forall s, reachable (r_models (p_reader p)) (r_priors (p_reader p)) s ->
      let out := call_model (with_grid ext dVcdz) fl (r_models (p_reader p)) (r_priors (p_reader p)) grid rv dr pe inj (CFloat (Fin N)) (length events) tobs s in
      c_sites (fst out) = config_sites /\
      factors (fst (snd out)) = (Site Factor "log_likelihood" (Scal (Fin (log_likelihood_of flags w events found N))) :: nil).
Proof. exact config_repaired. Qed.
Print Assumptions C120_with_grid_partial.

(** every call of the model the shipped configuration builds raises: the redshift class of the package has no parameter called grid *)
Theorem C120_shipped_configuration_refuted : forall ext fl rv dr pe inj ninj nobs tobs, (forall k, exists x, rv k = Scal x) ->
  exists p grid (s0 : cstate pdist), parse package_import config_yml new_reader = Ok p /\ construct_hierarchical_model (r_models (p_reader p)) (r_priors (p_reader p)) = Ok (grid, s0) /\
    forall s, reachable (r_models (p_reader p)) (r_priors (p_reader p)) s ->
      snd (call_model (package ext) fl (r_models (p_reader p)) (r_priors (p_reader p)) grid rv dr pe inj ninj nobs tobs s) = raise TypeError.
Proof. exact config_broken. Qed.
Print Assumptions C120_shipped_configuration_refuted.

(** so does every configuration whose redshift model is one of the package's classes, other than the B-spline distribution *)
Theorem C120_redshift_class_refuted : forall ext models priors fl rv dr grid pe inj ninj nobs tobs s c ps, is_dict models -> reachable models priors s ->
  In ("redshift", ESimple c ps) models -> c <> KBSplineDistribution -> (forall name, c <> KNumpyro name) ->
  raises (snd (call_model (package ext) fl models priors grid rv dr pe inj ninj nobs tobs s)).
Proof. exact redshift_class. Qed.
Print Assumptions C120_redshift_class_refuted.

(** the Python model beside it draws its five parameters and raises: its redshift class gets no grid and no volume element *)
Theorem C120_python_model_refuted : forall ext rv a d samps injs,
  python_model ext rv a d samps injs = (map (fun k => Site Sample k (Scal (rv k))) ["alpha"; "beta"; "mmin"; "mmax"; "lamb"], Err TypeError).
Proof. exact python_fails. Qed.
Print Assumptions C120_python_model_refuted.

Example C120_case : let rv k := if String.eqb k "mass_1_minimum" then Scal (Fin 3) else if String.eqb k "mass_1_maximum" then Scal (Fin 80) else Scal (Fin 1) in
  config_draws rv 1 3 80 1 1 /\ broken_line config_zs (map (fun _ => 1) config_zs) (fun _ => 1) /\ config_tables C113_pe C113_inj 2 C113_events C113_found /\
  (forall b, In b (concat C113_events ++ C113_found) -> / 10 ^ 9 <= b_z b /\ 0 < b_prior b) /\ INR (length C113_found) < 10 /\
  (forall w, cuts_pass (flagged (Flags true false false false) 10 (length C113_events)) 2 w C113_events C113_found 10).
Proof.
  cbv zeta. destruct C113_case as ((H1 & H2) & _). split; [|split; [|split; [|split; [|split]]]].
  - repeat split.
  - intros i t Hi _. rewrite !(map_nth_const config_zs) by lia. ring.
  - split; [exact H1|]. intros c f H. apply H2. cbn in H |- *. tauto.
  - intros b Hb. assert (L : / 10 ^ 9 <= / 10) by (apply Rinv_le_contravar; [lra|]; rewrite <- (pow_1 10) at 1; apply Rle_pow; [lra|lia]). cbn [concat app C113_events C113_found In] in Hb.
    pose proof (exp_ineq1_le 1) as HX. repeat (destruct Hb as [<-|Hb]; [cbn [b_z b_prior]; lra|]). destruct Hb.
  - unfold C113_found; cbn [length INR]; lra.
  - intros w. split; discriminate.
Qed.
