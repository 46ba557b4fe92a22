(** Property theorems C105-C107: the command line, the model set-up helpers and the example scripts. *)
From Verif Require Import PCommand PSetup PropsBSplines PBetaMoments.
From Verif Require Import SpecCommand Spec2.
Open Scope R_scope.
Open Scope string_scope.
Open Scope list_scope.

(** C105: for any list of settings, in any order and with repetitions, each attribute is the last value given for its option, or
    the declared default; the parser exits exactly when some given text cannot be read *)
Theorem C105_command_line : forall py_int py_float opts ss, opts = base_options \/ opts = parser_options -> Forall (allowed opts) ss ->
  (forall ns, parse_args py_int py_float opts (flat_map written ss) = Ok ns ->
     forall o, In o opts -> o_type o <> THelp -> exists a, assoc (o_dest o) ns = Ok a /\ attribute_is py_int py_float ss o a) /\
  ((forall s o, In s ss -> In o opts -> o_flag o = s_option s -> exists a, reads py_int py_float (o_type o) (s_text s) a) ->
     exists ns, parse_args py_int py_float opts (flat_map written ss) = Ok ns) /\
  ((exists s o, In s ss /\ In o opts /\ o_flag o = s_option s /\ forall a, ~ reads py_int py_float (o_type o) (s_text s) a) ->
     parse_args py_int py_float opts (flat_map written ss) = Err OtherError).
Proof. intros pi pf opts ss [-> | ->]; [exact (command_line pi pf _ base_declared ss)|exact (command_line pi pf _ parser_declared ss)]. Qed.
Print Assumptions C105_command_line.
Theorem C105_spline_defaults : forall py_int py_float ss ns, Forall (allowed base_options) ss -> parse_args py_int py_float base_options (flat_map written ss) = Ok ns ->
  (forall n, In n spline_options -> ~ In n (map s_option ss)) ->
  assoc "m_nsplines" ns = Ok (AInt 50) /\ assoc "q_nsplines" ns = Ok (AInt 30) /\ assoc "a_nsplines" ns = Ok (AInt 16) /\ assoc "tilt_nsplines" ns = Ok (AInt 16) /\ assoc "z_nsplines" ns = Ok (AInt 20).
Proof. exact splines_default. Qed.
Print Assumptions C105_spline_defaults.
(** a number of splines given on the command line stays a string, and building the models with it fails whatever the data *)
Theorem C105_spline_counts_refuted : forall py_int py_float ss ns n dV pe inj, Forall (allowed base_options) ss ->
  parse_args py_int py_float base_options (flat_map written ss) = Ok ns -> In n spline_options -> In n (map s_option ss) ->
  exists e, run_setup dV ns pe inj = Err e.
Proof. exact splines_given. Qed.
Print Assumptions C105_spline_counts_refuted.
(** any text, "False" included, switches the plots on *)
Theorem C105_save_plots_refuted : forall py_int py_float ss ns s v, Forall (allowed base_options) ss -> parse_args py_int py_float base_options (flat_map written ss) = Ok ns ->
  last_for "--save-plots" ss = Some s -> s_text s = Some v -> v <> "" -> assoc "save_plots" ns = Ok (ABool true).
Proof. exact save_plots_true. Qed.
Print Assumptions C105_save_plots_refuted.
(** any other text with a dash in front, written apart from its option, is refused *)
Theorem C105_dash_values : forall py_int py_float opts ss o v rest, opts = base_options \/ opts = parser_options -> Forall (allowed opts) ss -> In o opts -> o_type o <> TFlag ->
  String.prefix "-" v = true -> v <> "-" -> contains " " v = false -> ~ negative_number v -> exists e, parse_args py_int py_float opts (flat_map written ss ++ o_flag o :: v :: rest) = Err e.
Proof.
  intros pi pf opts ss o v rest [-> | ->] HA HI HT H1 H2 H3 H4; [exact (parse_dash pi pf _ base_declared ss o _ v rest HA HI eq_refl HT H1 H2 H3 H4 _)|exact (parse_dash pi pf _ parser_declared ss o _ v rest HA HI eq_refl HT H1 H2 H3 H4 _)].
Qed.
Print Assumptions C105_dash_values.
Example C105_dash_case : ~ negative_number "-1.5.2" /\ ~ negative_number "-x" /\ ~ negative_number "--outdir" /\ negative_number "-1.5" /\ negative_number "-.5".
Proof. repeat split; rewrite <- negative_iff; vm_compute; congruence. Qed.
Definition C105_line : list setting := [Apart "--samples" "5"; Flag "--skip-inference"; Joined "--m-nsplines" "40"; Apart "--save-plots" "False"; Joined "--samples" "7"; ShortApart "--rn" "--rngkey" "-12"; ShortFlag "--skip" "--skip-inference"].
Example C105_case : flat_map written C105_line = ["--samples"; "5"; "--skip-inference"; "--m-nsplines=40"; "--save-plots"; "False"; "--samples=7"; "--rn"; "-12"; "--skip"] /\ Forall (allowed base_options) C105_line /\
  exists ns, parse_args (fun v => Some (Z.of_nat (String.length v))) (fun _ => None) base_options (flat_map written C105_line) = Ok ns /\ assoc "m_nsplines" ns = Ok (AStr "40") /\ assoc "save_plots" ns = Ok (ABool true) /\
    assoc "skip_inference" ns = Ok (ABool true) /\ assoc "warmup" ns = Ok (AInt 1000).
Proof.
  split; [reflexivity|]. split.
  - assert (AB : forall p n, (exists r, p = "--" ++ r /\ r <> "")%string -> contains "=" p = false -> filter (fun o => String.prefix p (o_flag o)) base_options = filter (fun o => String.eqb (o_flag o) n) base_options -> abbreviates base_options p n).
    { intros p n H1 H2 H3. split; auto. split; auto. intros o Ho. rewrite <- String.eqb_eq. pose proof (filter_In (fun o => String.prefix p (o_flag o)) o base_options) as F1. pose proof (filter_In (fun o => String.eqb (o_flag o) n) o base_options) as F2. rewrite H3 in F1. tauto. }
    constructor; [exists (Decl "--samples" "samples" TInt (AInt 1500))|constructor; [exists (Decl "--skip-inference" "skip_inference" TFlag (ABool false))|constructor; [exists (Decl "--m-nsplines" "m_nsplines" TStr (AInt 50))|
      constructor; [exists (Decl "--save-plots" "save_plots" TBool (ABool true))|constructor; [exists (Decl "--samples" "samples" TInt (AInt 1500))|constructor; [exists (Decl "--rngkey" "rngkey" TInt (AInt 1))|constructor; [exists (Decl "--skip-inference" "skip_inference" TFlag (ABool false))|constructor]]]]]]];
      (split; [cbn; tauto|]; split; [reflexivity|]; split; [discriminate|]; split; [split; cbn; congruence|]; split; [intros v E; cbn in E; try discriminate; injection E as <-|intros p E; cbn in E; try discriminate; injection E as <-]).
    + left; reflexivity.
    + left; reflexivity.
    + right. exists "12"%string, ""%string. split; [repeat constructor; cbn; tauto|]. split; [constructor|]. left. split; [reflexivity|discriminate].
    + apply AB; [exists "rn"%string; split; [reflexivity|discriminate]|reflexivity|reflexivity].
    + apply AB; [exists "skip"%string; split; [reflexivity|discriminate]|reflexivity|reflexivity].
  - eexists. split; [reflexivity|]. repeat split; reflexivity.
Qed.

(** C106 *)
Theorem C106_mass_models : forall pe inj E n k nm nq mmin mmax, has_data pe inj E n k "mass_1" -> has_data pe inj E n k "mass_ratio" -> 0 < mmin < mmax -> (4 <= nm)%nat -> (4 <= nq)%nat ->
  exists ms, setup_bspline_mass_models pe inj (AInt (Z.of_nat nm)) (AInt (Z.of_nat nq)) (Fin mmin) (Fin mmax) = Ok ms /\
  forall mass_cs q_cs, length mass_cs = nm -> length q_cs = nq ->
  exists P I, primary_ratio_call ms mass_cs q_cs true = Ok P /\ primary_ratio_call ms mass_cs q_cs false = Ok I /\
    each_sample pe inj E n k P I (mass_density mmin mmax nm nq mass_cs q_cs).
Proof. exact mass_setup. Qed.
Print Assumptions C106_mass_models.
Theorem C106_independent_spin_models : forall pe inj E n k na1 nt1 na2 nt2, has_data pe inj E n k "a_1" -> has_data pe inj E n k "a_2" -> has_data pe inj E n k "cos_tilt_1" -> has_data pe inj E n k "cos_tilt_2" ->
  (4 <= na1)%nat -> (4 <= nt1)%nat -> (4 <= na2)%nat -> (4 <= nt2)%nat ->
  exists mag tilt, setup_bspline_spin_models pe inj (AInt (Z.of_nat na1)) (AInt (Z.of_nat nt1)) false (AInt (Z.of_nat na2)) (AInt (Z.of_nat nt2)) = Ok (mag, tilt) /\
  (forall c1 c2, length c1 = na1 -> length c2 = na2 ->
    exists P I, pair_call (fst mag) (snd mag) c1 c2 true = Ok P /\ pair_call (fst mag) (snd mag) c1 c2 false = Ok I /\ each_sample pe inj E n k P I (magnitude_density na1 na2 c1 c2)) /\
  (forall c1 c2, length c1 = nt1 -> length c2 = nt2 ->
    exists P I, pair_call (fst tilt) (snd tilt) c1 c2 true = Ok P /\ pair_call (fst tilt) (snd tilt) c1 c2 false = Ok I /\ each_sample pe inj E n k P I (tilt_density nt1 nt2 c1 c2)).
Proof. exact spin_setup_independent. Qed.
Print Assumptions C106_independent_spin_models.
Theorem C106_iid_spin_models : forall pe inj E n k na nt a2 ct2, has_data pe inj E n k "a_1" -> has_data pe inj E n k "a_2" -> has_data pe inj E n k "cos_tilt_1" -> has_data pe inj E n k "cos_tilt_2" ->
  (4 <= na)%nat -> (4 <= nt)%nat ->
  exists mag tilt, setup_bspline_spin_models pe inj (AInt (Z.of_nat na)) (AInt (Z.of_nat nt)) true a2 ct2 = Ok (mag, tilt) /\
  (forall c, length c = na ->
    exists P I, iid_call (fst mag) (snd mag) c true = Ok P /\ iid_call (fst mag) (snd mag) c false = Ok I /\ each_sample pe inj E n k P I (magnitude_density na na c c)) /\
  (forall c, length c = nt ->
    exists P I, iid_call (fst tilt) (snd tilt) c true = Ok P /\ iid_call (fst tilt) (snd tilt) c false = Ok I /\ each_sample pe inj E n k P I (tilt_density nt nt c c)).
Proof. exact spin_setup_iid. Qed.
Print Assumptions C106_iid_spin_models.
Theorem C106_redshift_model : forall dVcdz v pe inj n p0 zs i0 is, redshifts_are pe inj p0 zs i0 is -> (4 <= n)%nat -> good_redshifts KLogX dVcdz v p0 zs i0 is ->
  let a := grid_lo p0 zs i0 is in let b := grid_hi p0 zs i0 is in wide_range KLogX n 4 a b ->
  exists m, setup_powerlaw_spline_redshift_model dVcdz pe inj (AInt (Z.of_nat n)) = Ok m /\
  forall lamb cs sel, length cs = n ->
    plz_model_call m (map Fin (all_samples p0 zs i0 is sel)) sel (Fin lamb) (map Fin cs) = Ok (map Fin (map (redshift_density v a b lamb n cs) (all_samples p0 zs i0 is sel))).
Proof. exact redshift_setup. Qed.
Print Assumptions C106_redshift_model.
(** a missing column is reported, and so are the secondary spin's numbers of splines when they are needed *)
Theorem C106_missing_columns : forall dV pe inj (IID : bool) nm nq na na2 nz nt nt2 mmin mmax c, assoc c pe = Err KeyError \/ assoc c inj = Err KeyError ->
  (In c ["mass_1"; "mass_ratio"] -> setup_bspline_mass_models pe inj nm nq mmin mmax = Err KeyError) /\
  (In c ["a_1"; "a_2"; "cos_tilt_1"; "cos_tilt_2"] -> (4 <= nt)%nat -> (IID = false -> (4 <= nt2)%nat) ->
     setup_bspline_spin_models pe inj na (AInt (Z.of_nat nt)) IID na2 (AInt (Z.of_nat nt2)) = Err KeyError) /\
  (c = "redshift" -> setup_powerlaw_spline_redshift_model dV pe inj nz = Err KeyError).
Proof.
  intros dV pe inj IID nm nq na na2 nz nt nt2 mmin mmax c H. split; [intros HI; exact (mass_missing pe inj nm nq mmin mmax c HI H)|].
  split; [intros HI; exact (spin_missing pe inj na nt IID na2 nt2 c HI H)|intros ->; exact (redshift_missing dV pe inj nz H)].
Qed.
Print Assumptions C106_missing_columns.
Theorem C106_no_samples : forall dV pe inj n z zi, assoc "redshift" pe = Ok z -> assoc "redshift" inj = Ok zi -> flat z = [] \/ zi = [] -> setup_powerlaw_spline_redshift_model dV pe inj n = Err ValueError.
Proof. exact redshift_empty. Qed.
Print Assumptions C106_no_samples.
Theorem C106_secondary_spin_counts : forall pe inj E n k na nt, has_data pe inj E n k "cos_tilt_1" -> has_data pe inj E n k "cos_tilt_2" ->
  setup_bspline_spin_models pe inj (AInt (Z.of_nat na)) (AInt (Z.of_nat nt)) false ANone ANone = Err TypeError.
Proof. exact spin_setup_default. Qed.
Print Assumptions C106_secondary_spin_counts.
Definition C106_pe : dict arr2 := map (fun kv => (fst kv, Arr2 2 ((map Fin (snd kv)) :: nil)))
  [("mass_1", [10; 20]); ("mass_ratio", [1/2; 1]); ("a_1", [1/3; 2/3]); ("a_2", [0; 1/2]); ("cos_tilt_1", [0; -1]); ("cos_tilt_2", [1; 1/2]); ("redshift", [1/2; 1]); ("prior", [1; 2])].
Definition C106_inj : dict (list num) := map (fun kv => (fst kv, map Fin (snd kv)))
  [("mass_1", [12; 25]); ("mass_ratio", [1/4; 3/4]); ("a_1", [1/5; 2/5]); ("a_2", [1; 1/7]); ("cos_tilt_1", [1/2; 0]); ("cos_tilt_2", [-1; 0]); ("redshift", [1/4; 2]); ("prior", [3; 1])].
Example C106_case : (forall c, In c ["mass_1"; "mass_ratio"; "a_1"; "a_2"; "cos_tilt_1"; "cos_tilt_2"; "redshift"; "prior"] -> has_data C106_pe C106_inj 1 2 2 c) /\
  redshifts_are C106_pe C106_inj (1/2) [1] (1/4) [2] /\ good_redshifts KLogX (fun x => x) (fun z => z) (1/2) [1] (1/4) [2] /\
  wide_range KLogX 6 4 (grid_lo (1/2) [1] (1/4) [2]) (grid_hi (1/2) [1] (1/4) [2]).
Proof.
  split; [|split; [|split; apply C100_case]].
  - intros c HI. cbn [In] in HI. decompose [or] HI; try contradiction; subst c;
      (split; [eexists; split; [reflexivity|]; split; [reflexivity|]; split; [reflexivity|]; repeat constructor|eexists; split; reflexivity]).
  - eexists. split; [reflexivity|]. split; reflexivity.
Qed.

(** C107: the weights of the B-spline example are the product of the set-up densities over the sampling prior *)
Theorem C107_bspline_example_weights_partial : forall dVcdz v pe inj E n k nm nq na nct nz mmin mmax p0 zs i0 is,
  (forall c, In c ["mass_1"; "mass_ratio"; "a_1"; "a_2"; "cos_tilt_1"; "cos_tilt_2"; "redshift"; "prior"] -> has_data pe inj E n k c) ->
  0 < mmin < mmax -> (4 <= nm)%nat -> (4 <= nq)%nat -> (4 <= na)%nat -> (4 <= nct)%nat -> (4 <= nz)%nat ->
  redshifts_are pe inj p0 zs i0 is -> good_redshifts KLogX dVcdz v p0 zs i0 is ->
  let a := grid_lo p0 zs i0 is in let b := grid_hi p0 zs i0 is in wide_range KLogX nz 4 a b ->
  exists mass mag tilt zm z pr zi pri,
    example_setup dVcdz pe inj (AInt (Z.of_nat nm)) (AInt (Z.of_nat nq)) (AInt (Z.of_nat na)) (AInt (Z.of_nat nct)) (AInt (Z.of_nat nz)) (Fin mmin) (Fin mmax) = Ok (mass, mag, tilt, zm) /\
    assoc "redshift" pe = Ok z /\ assoc "prior" pe = Ok pr /\ assoc "redshift" inj = Ok zi /\ assoc "prior" inj = Ok pri /\
    forall mcs qcs a1 t1 a2 t2 zcs lamb, length mcs = nm -> length qcs = nq -> length a1 = na -> length a2 = na -> length t1 = nct -> length t2 = nct -> length zcs = nz ->
    exists P I, bspline_weights mass mag tilt zm mcs qcs a1 t1 a2 t2 (map Fin zcs) (Fin lamb) (flat z) (flat pr) true = Ok P /\
      bspline_weights mass mag tilt zm mcs qcs a1 t1 a2 t2 (map Fin zcs) (Fin lamb) zi pri false = Ok I /\
      each_sample pe inj E n k P I (sample_weight mmin mmax nm nq na nct mcs qcs a1 t1 a2 t2 (redshift_density v a b lamb nz zcs)).
Proof. exact example_weights. Qed.
Print Assumptions C107_bspline_example_weights_partial.
(** called with keywords the likelihood has, the example would evaluate it on these weights, one row per event, with the coefficients drawn at the sites of their names *)
Theorem C107_bspline_example_call_partial : forall keywords rv lamb a d dVcdz v pe inj E n k nm nq na nct nz mmin mmax p0 zs i0 is zr, binds likelihood_parameters 5 keywords = true ->
  (forall c, In c ["mass_1"; "mass_ratio"; "a_1"; "a_2"; "cos_tilt_1"; "cos_tilt_2"; "redshift"; "prior"] -> has_data pe inj E n k c) ->
  0 < mmin < mmax -> (4 <= nm)%nat -> (4 <= nq)%nat -> (4 <= na)%nat -> (4 <= nct)%nat -> (4 <= nz)%nat ->
  redshifts_are pe inj p0 zs i0 is -> good_redshifts KLogX dVcdz v p0 zs i0 is ->
  let lo := grid_lo p0 zs i0 is in let hi := grid_hi p0 zs i0 is in wide_range KLogX nz 4 lo hi -> (forall i, rv "z_cs" i = Fin (zr i)) ->
  exists mass mag tilt zm, example_setup dVcdz pe inj (AInt (Z.of_nat nm)) (AInt (Z.of_nat nq)) (AInt (Z.of_nat na)) (AInt (Z.of_nat nct)) (AInt (Z.of_nat nz)) (Fin mmin) (Fin mmax) = Ok (mass, mag, tilt, zm) /\
  exists rows I, snd (bspline_example_with keywords rv (Fin lamb) a d pe inj mass mag tilt zm nm nq na nct nz) = hierarchical_likelihood a d (PEOne (Arr2 n rows)) I /\
    length rows = E /\ Forall (fun r => length r = n) rows /\
    each_sample pe inj E n k (concat rows) I (sample_weight mmin mmax nm nq na nct (drawn rv "mass_cs" nm) (drawn rv "q_cs" nq) (drawn rv "a1_cs" na) (drawn rv "tilt1_cs" nct) (drawn rv "a2_cs" na) (drawn rv "tilt2_cs" nct)
      (redshift_density v lo hi lamb nz (0 :: map zr (seq 0 (nz - 1))))).
Proof. exact example_call. Qed.
Print Assumptions C107_bspline_example_call_partial.
Example C107_call_case : binds likelihood_parameters 5 ["param_names"; "pedata"; "injdata"; "m2min"; "m1min"; "mmax"] = true /\ binds likelihood_parameters 5 example_keywords = false.
Proof. split; reflexivity. Qed.
(** the weight of the power-law-peak example: mass density, magnitude densities with shapes (mu var, (1-mu) var), tilt mixtures and redshift density over the sampling prior *)
Theorem C107_peak_weight_partial : forall betaln zm alpha beta mmin mmax mpp sigpp lam mu1 v1 mu2 v2 x1 x2 s1 s2 lamb m1 q a1 a2 c1 c2 z dV prior pq p nn b1 b2 n1 n2 pz,
  0 < m1 -> -1 <= c1 <= 1 -> -1 <= c2 <= 1 -> 0 < s1 -> 0 < s2 -> prior <> 0 ->
  powerlaw_pdf (Fin q) (Fin beta) (Fin (mmin / m1)) (Fin 1) (Fin 0) = Fin pq -> powerlaw_pdf (Fin m1) (Fin alpha) (Fin mmin) (Fin mmax) (Fin 0) = Fin p ->
  truncnorm_pdf (Fin m1) (Fin mpp) (Fin sigpp) (Fin mmin) (Fin mmax) false = Fin nn ->
  betadist betaln a1 (Fin (mu1 * v1)) (Fin ((1 - mu1) * v1)) (Fin 1) (Fin 0) = Fin b1 -> betadist betaln a2 (Fin (mu2 * v2)) (Fin ((1 - mu2) * v2)) (Fin 1) (Fin 0) = Fin b2 ->
  truncnorm_pdf (Fin c1) (Fin 1) (Fin s1) (Fin (-1)) (Fin 1) false = Fin n1 -> truncnorm_pdf (Fin c2) (Fin 1) (Fin s2) (Fin (-1)) (Fin 1) false = Fin n2 -> redshift_call zm z dV lamb = Fin pz ->
  peak_weight betaln zm (Fin alpha) (Fin beta) (Fin mmin) (Fin mmax) (Fin mpp) (Fin sigpp) (Fin lam) (Fin mu1) (Fin v1) (Fin mu2) (Fin v2) (Fin x1) (Fin x2) (Fin s1) (Fin s2) lamb (Fin m1) (Fin q) a1 a2 (Fin c1) (Fin c2) z dV (Fin prior)
  = Fin (pq * ((1 - lam) * p + lam * nn) * (b1 * b2) * (((1 - x1) * (1/2) + x1 * n1) * ((1 - x2) * (1/2) + x2 * n2)) * pz / prior).
Proof. exact peak_value. Qed.
Print Assumptions C107_peak_weight_partial.
(** but none of the example models reaches the likelihood: the call passes a keyword hierarchical_likelihood does not have *)
Theorem C107_bspline_example_refuted : forall rv lamb a d pe inj mass mag tilt zm nm nq na nct nz,
  exists e, snd (bspline_example_model rv lamb a d pe inj mass mag tilt zm nm nq na nct nz) = raise e.
Proof. exact example_raises. Qed.
Print Assumptions C107_bspline_example_refuted.
Theorem C107_other_examples_refuted : forall a d w iw, call_likelihood 5 peak_keywords a d w iw = raise TypeError /\ call_likelihood 2 config_keywords a d w iw = raise TypeError.
Proof. intros a d w iw. split; apply call_unbound; cbn; tauto. Qed.
Print Assumptions C107_other_examples_refuted.
(** the power-law-peak example samples var_a but gives the spin magnitude another variance *)
Theorem C107_spin_variance_refuted : forall betaln mu var lnB a b, 0 < mu < 1 -> 0 < var -> peak_shapes (Fin mu) (Fin var) = (Fin a, Fin b) ->
  betaln (Fin a) (Fin b) = Fin lnB -> beta_integral_open a b (exp lnB) ->
  exists f, (forall x, 0 < x < 1 -> betadist betaln (Fin x) (Fin a) (Fin b) (Fin 1) (Fin 0) = Fin (f x)) /\
    is_RInt_gen f (at_right 0) (at_left 1) 1 /\ is_RInt_gen (fun x => x * f x) (at_right 0) (at_left 1) mu /\
    is_RInt_gen (fun x => (x - mu) * (x - mu) * f x) (at_right 0) (at_left 1) (mu * (1 - mu) / (1 + var)) /\
    (mu * (1 - mu) / (1 + var) = var <-> var * (1 + var) = mu * (1 - mu)) /\ a + b = var.
Proof. exact peak_variance. Qed.
Print Assumptions C107_spin_variance_refuted.
Example C107_case : (exists a b, peak_shapes (Fin (1/3)) (Fin (3/2)) = (Fin a, Fin b) /\ a = 1/2 /\ b = 1) /\ beta_integral_open (1/2) 1 (exp (ln 2)) /\ 1 / 3 * (1 - 1 / 3) / (1 + 3 / 2) <> 3 / 2.
Proof. split; [do 2 eexists; split; [reflexivity|split; lra]|]. split; [rewrite exp_ln by lra; exact beta_integral_open_half|intros E; lra]. Qed.
