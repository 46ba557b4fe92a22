(** Property theorem C117: from posterior files and an injection file to the log-likelihood of the example models. *)
From Coq Require Import Lra Lia.
From Verif Require Import PWhole PFit PPeak PCollectCut NumFacts ExPreprocess PropsStore.
From Verif Require Import SpecWhole SpecCosmology SpecCollect SpecSelection SpecLoad Spec.
Open Scope R_scope.
Open Scope string_scope.
Open Scope list_scope.

(** C117; partial: the models' calls of the likelihood with keywords that bind (C107), and found injections with real values *)
Theorem C117_files_to_log_likelihood_partial : forall ho om orad ol zm c, flat ho om orad ol -> 0 < zm ->
  make_cosmo (Fin ho) (Fin om) (Fin orad) (Fin ol) (Fin zm) (Fin DEFAULT_DZ) = Ok c -> forall names, (forall p, In p names <-> In p parameters) -> forall qs,
  let c1 := history c qs (Fin DEFAULT_DZ) in
  forall h5 read choice w mmax meta kf cat fs filename file o4a cuts ifar snr n t dens N P,
  Forall2 (stored h5) meta cat -> cat <> [] -> Forall (fun ke : string * event_post => usable c mmax (snd ke)) cat -> is_sampling choice ->
  reads names ifar snr file o4a cuts n t dens (Fin N) P -> real_injections n t dens P -> h5_name filename ->
  exists a c2 i fs' pe inj time ps size pze pzc events found sel zs,
    load_posterior_dataset h5 read choice w c1 mmax (Some meta) kf names = Ok (a, c2) /\
    load_injection_dataset w (read_injections file names o4a true ifar snr cuts) names = Ok i /\
    save_posterior_samples_and_injection_datasets_as_idata fs filename a i = Ok fs' /\
    load_file fs' filename None = Ok (pe, inj, Constants (Fin N) time (length events), ps) /\
    (1 <= size <= 10000)%nat /\ euclidean_prior ho om orad c1 zs pze /\ comoving_prior ho om orad zs pzc /\
    Forall2 (event_is c mmax (fun zp => if String.eqb zp "euclidean" then pze else pzc) size) cat events /\
    selects n P sel /\ Forall2 (injection_is t dens) sel found /\
    forall keywords dVcdz v args d mlo mhi, binds likelihood_parameters 5 keywords = true -> (forall z, -1 < z -> dVcdz (Fin z) = Fin (v z)) ->
      (forall draw lamb nm nq na nct nz, (1 <= nz)%nat ->
         let p := drawn_population mlo mhi v (z_low events found) (z_high events found) lamb draw nm nq na nct nz in
         fit_ok args size events found N p ->
         exists mass mag tilt zmodel, example_setup dVcdz (arrays size pe) inj (AInt (Z.of_nat nm)) (AInt (Z.of_nat nq)) (AInt (Z.of_nat na)) (AInt (Z.of_nat nct)) (AInt (Z.of_nat nz)) (Fin mlo) (Fin mhi) = Ok (mass, mag, tilt, zmodel) /\
           factors (fst (snd (bspline_example_with keywords (fun s i => Fin (draw s i)) (Fin lamb) args d (arrays size pe) inj mass mag tilt zmodel nm nq na nct nz))) =
           (Site Factor "log_likelihood" (Scal (Fin (log_likelihood args p events found N))) :: nil)) /\
      (forall betaln draw B1 B2,
         let k := drawn_peak mlo mhi v (z_low events found) (z_high events found) draw B1 B2 in
         betaln (Fin (k_mu1 k * k_v1 k)) (Fin ((1 - k_mu1 k) * k_v1 k)) = Fin (ln B1) -> betaln (Fin (k_mu2 k * k_v2 k)) (Fin ((1 - k_mu2 k) * k_v2 k)) = Fin (ln B2) ->
         peak_fit_ok args size events found N k ->
         exists zmodel, peak_setup dVcdz (arrays size pe) inj = Ok zmodel /\
           factors (fst (peak_example_with betaln dVcdz (fun s => Fin (draw s)) zmodel (Fin mlo) (Fin mhi) keywords args d (arrays size pe) inj)) =
           (Site Factor "log_likelihood" (Scal (Fin (log_likelihood_of args (peak_pdf_over_prior k) events found N))) :: nil)).
Proof. exact files_to_likelihood. Qed.
Print Assumptions C117_files_to_log_likelihood_partial.
Example C117_case : (forall p, In p parameters <-> In p parameters) /\
  Forall2 (stored C108_h5) [("GW1", Meta "GW1.h5" "wf" "euclidean" "GWTC-2"); ("GW2", Meta "GW2.h5" "wf" "euclidean" "GWTC-2")] C108_events /\
  (forall c, Forall (fun ke : string * event_post => usable c (Fin 100) (snd ke)) C108_events) /\ is_sampling first_ones /\ h5_name "catalog.h5" /\
  let f := ex_o3 2 1 in let P := fun j => found_o3 f (Fin 1) (Fin 10) j \/ passes_cut f None j in
  reads parameters (Fin 1) (Fin 10) (FileO3 f) false None 1 (o3_cols f) (o3_density f) (Fin 500) P /\ real_injections 1 (o3_cols f) (o3_density f) P /\ P O.
Proof.
  destruct C108_case as (A1 & _ & _ & A2 & A3 & A4 & _). split; [tauto|]. do 4 (split; [assumption|]). cbv zeta.
  split; [apply (ex_o3_reads parameters 2 1 None I)|]. split; [|left; apply ex_o3_found; lra].
  intros j Hj _. assert (j = O) as -> by lia. split; [|eexists; reflexivity].
  assert (M : forall ii, In ii ["1"; "2"] -> mag (ex_cols 2 1) ii 0 = Fin 1).
  { intros ii Hi. assert (X : mag (ex_cols 2 1) ii 0 = magnitude (Fin 1) (Fin 0) (Fin 0)) by (destruct Hi as [<-|[<-|[]]]; reflexivity). rewrite X.
    unfold magnitude. rewrite !nmul_fin, !nadd_fin. replace (1 * 1 + 0 * 0 + 0 * 0) with (1 * 1) by ring. rewrite nsqrt_fin by lra. now rewrite sqrt_square by lra. }
  intros p Hp. cbn [parameters In] in Hp. decompose [or] Hp; try contradiction; subst p; unfold injection_value; cbn [String.eqb Ascii.eqb Bool.eqb];
    change (o3_cols (ex_o3 2 1)) with (ex_cols 2 1); rewrite ?M by (cbn; tauto); try (eexists; reflexivity).
  - change (cell (ex_cols 2 1) "mass2_source" 0) with (Fin 20). change (cell (ex_cols 2 1) "mass1_source" 0) with (Fin 30). rewrite ndiv_fin by lra. eauto.
  - change (cell (ex_cols 2 1) "spin1z" 0) with (Fin 0). rewrite ndiv_fin by lra. eauto.
  - change (cell (ex_cols 2 1) "spin2z" 0) with (Fin 0). rewrite ndiv_fin by lra. eauto.
Qed.
