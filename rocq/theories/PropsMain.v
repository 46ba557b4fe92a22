(** Property theorems C118, C119 (the curves the example scripts export from a fit). *)
From Verif Require Import PMain PMainPeak PropsFit.
From Verif Require Import Spec SpecFit SpecPeak SpecMain.
Open Scope R_scope.
Open Scope string_scope.
Open Scope list_scope.

(** C118; partial: the mass curves are those of the fit with a condition the fit does not have ([C118_mass_edges_refuted]) *)
Theorem C118_curves_partial : forall pe inj n events found mmin mmax nm nq na nct nz pops rates dVcdz posterior,
  data_ok pe inj n events found -> pops <> [] -> (forall p, In p pops -> same_ranges mmin mmax (z_low events found) (z_high events found) nm nq na nct nz p) -> bspline_posterior posterior pops rates ->
  let zlo := z_low events found in let zhi := z_high events found in
  exists zm vars, setup_powerlaw_spline_redshift_model dVcdz pe inj (AInt (Z.of_nat nz)) = Ok zm /\
  bspline_export posterior nm nq na na nct nct (Fin mmin) (Fin mmax) zm (length pops) = Ok (vars, coords_of (export_grid mmin mmax zlo zhi) (length pops)) /\
  forall i p, nth_error pops i = Some p -> exists r1 r2 t1 t2 rm rq rz,
    exported vars "a1" i r1 /\ exported vars "a2" i r2 /\ exported vars "cos_tilt1" i t1 /\ exported vars "cos_tilt2" i t2 /\ exported vars "mass_1" i rm /\ exported vars "mass_ratio" i rq /\ exported vars "redshift" i rz /\
    rate_curve (rlinspace 0 1 800) (spin_pdf (o_a1 p)) 1 r1 /\ rate_curve (rlinspace 0 1 800) (spin_pdf (o_a2 p)) 1 r2 /\
    rate_curve (rlinspace (-1) 1 800) (cosine_pdf (o_t1 p)) 1 t1 /\ rate_curve (rlinspace (-1) 1 800) (cosine_pdf (o_t2 p)) 1 t2 /\
    mass_rate_curves mmin mmax (above_minimum mmin (fun m q => mass_pdf p m * ratio_pdf p q)) 1 rm rq /\
    rate_of zlo zhi (o_vol p) (z_pdf p) (nth i rates 0) (fun z => Rpower (1 + z) (o_lamb p) * exp (curve (ln zlo) (ln zhi) nz 4 (o_z p) (ln z))) rz.
Proof. exact bspline_exports. Qed.
Print Assumptions C118_curves_partial.
(** the fitted mass densities do not vanish at the lower edges, the exported curves do *)
Theorem C118_mass_edges_refuted : forall pe inj n events found mmin mmax nm nq na nct nz pops rates dVcdz zm posterior,
  data_ok pe inj n events found -> pops <> [] -> (forall p, In p pops -> same_ranges mmin mmax (z_low events found) (z_high events found) nm nq na nct nz p) ->
  setup_powerlaw_spline_redshift_model dVcdz pe inj (AInt (Z.of_nat nz)) = Ok zm -> bspline_posterior posterior pops rates ->
  exists vars coords, bspline_export posterior nm nq na na nct nct (Fin mmin) (Fin mmax) zm (length pops) = Ok (vars, coords) /\
  forall i p, nth_error pops i = Some p -> exists rm rq, exported vars "mass_1" i rm /\ exported vars "mass_ratio" i rq /\
    nth 0 rm NaN = Fin 0 /\ 0 < mass_pdf p mmin /\ nth 0 rq NaN = Fin 0 /\ 0 < ratio_pdf p (mmin / mmax).
Proof. exact bspline_edges. Qed.
Print Assumptions C118_mass_edges_refuted.
(** with a number of draws other than the samples argument, e.g. several chains of that many samples, nothing is exported *)
Theorem C118_chains_refuted : forall pe inj n events found mmin mmax nm nq na nct nz pops rates dVcdz zm posterior samples,
  data_ok pe inj n events found -> pops <> [] -> (forall p, In p pops -> same_ranges mmin mmax (z_low events found) (z_high events found) nm nq na nct nz p) ->
  setup_powerlaw_spline_redshift_model dVcdz pe inj (AInt (Z.of_nat nz)) = Ok zm -> bspline_posterior posterior pops rates ->
  samples <> length pops -> bspline_export posterior nm nq na na nct nct (Fin mmin) (Fin mmax) zm samples = Err ValueError.
Proof. exact bspline_chains. Qed.
Print Assumptions C118_chains_refuted.
Definition C118_pops : list population := [C113_pop 0; C113_pop 1].
Definition C118_posterior : dict samples_of :=
  let vecs f := Vectors (map (fun p => map Fin (f p)) C118_pops) in
  [("mass_cs", vecs o_m); ("q_cs", vecs o_q); ("a1_cs", vecs o_a1); ("a2_cs", vecs o_a2); ("tilt1_cs", vecs o_t1); ("tilt2_cs", vecs o_t2); ("z_cs", vecs (fun p => tl (o_z p)));
   ("lamb", Numbers (map (fun p => Fin (o_lamb p)) C118_pops)); ("rate", Numbers [Fin 20; Fin 30])].
Example C118_case : data_ok C113_pe C113_inj 2 C113_events C113_found /\
  (forall p, In p C118_pops -> same_ranges 1 (exp 1) (z_low C113_events C113_found) (z_high C113_events C113_found) 6 5 4 5 4 p) /\ bspline_posterior C118_posterior C118_pops [20; 30].
Proof.
  destruct C113_case as (HT & HF). split; [|split].
  - split; [exact HT|]. split; [lia|]. split; [discriminate|]. split; [discriminate|]. intros b Hb. pose proof (exp_pos 1). cbn in Hb. repeat (destruct Hb as [<-|Hb]; [cbn; lra|]). destruct Hb.
  - intros p Hp. assert (E : exists x, -1 <= x /\ p = C113_pop x) by (cbn in Hp; destruct Hp as [<-|[<-|[]]]; [exists 0|exists 1]; split; auto; lra). destruct E as (x & HX & ->).
    split; [apply (HF x HX)|]. unfold C113_pop, drawn_population. cbn [o_mmin o_mmax o_zlo o_zhi o_m o_q o_a1 o_t1 o_z]. rewrite !map_length. repeat match goal with |- _ /\ _ => split end; auto.
  - unfold bspline_posterior. repeat match goal with |- _ /\ _ => split end; reflexivity.
Qed.

(** C119; partial: the spin magnitude curves are lost ([C119_spin_magnitudes_refuted]) and the mass curves are those of C118 *)
Theorem C119_curves_partial : forall pe inj n events found mmin mmax ks rates dVcdz betaln posterior,
  data_ok pe inj n events found -> ks <> [] -> (forall k, In k ks -> same_peak_ranges mmin mmax (z_low events found) (z_high events found) k) ->
  (forall a b, 0 < a -> 0 < b -> exists l, betaln (Fin a) (Fin b) = Fin l) -> peak_posterior posterior ks rates ->
  let zlo := z_low events found in let zhi := z_high events found in
  exists zm vars, peak_setup dVcdz pe inj = Ok zm /\
  peak_export betaln posterior (Fin mmin) (Fin mmax) zm (length ks) = Ok (vars, coords_of (export_grid mmin mmax zlo zhi) (length ks)) /\
  forall i k, nth_error ks i = Some k -> exists t1 t2 rm rq rz,
    exported vars "cos_tilt1" i t1 /\ exported vars "cos_tilt2" i t2 /\ exported vars "mass_1" i rm /\ exported vars "mass_ratio" i rq /\ exported vars "redshift" i rz /\
    rate_curve (rlinspace (-1) 1 800) (k_tilt (k_x1 k) (k_s1 k)) 1 t1 /\ rate_curve (rlinspace (-1) 1 800) (k_tilt (k_x2 k) (k_s2 k)) 1 t2 /\
    mass_rate_curves mmin mmax (above_minimum mmin (fun m q => k_mass k m * k_ratio k m q)) 1 rm rq /\
    rate_of zlo zhi (k_vol k) (k_z k) (nth i rates 0) (fun z => Rpower (1 + z) (k_lamb k)) rz.
Proof. exact peak_curves. Qed.
Print Assumptions C119_curves_partial.
(** the example's priors draw k_v below 1/4: the exported curve is then not a number at 0 and 1 and zero between, whatever the fit *)
Theorem C119_spin_magnitudes_refuted : forall pe inj n events found mmin mmax ks rates dVcdz betaln posterior,
  data_ok pe inj n events found -> ks <> [] -> (forall k, In k ks -> same_peak_ranges mmin mmax (z_low events found) (z_high events found) k) ->
  (forall a b, 0 < a -> 0 < b -> exists l, betaln (Fin a) (Fin b) = Fin l) -> peak_posterior posterior ks rates ->
  exists zm vars coords, peak_setup dVcdz pe inj = Ok zm /\ peak_export betaln posterior (Fin mmin) (Fin mmax) zm (length ks) = Ok (vars, coords) /\
  forall i k, nth_error ks i = Some k -> k_v1 k <= 1 /\ k_v2 k <= 1 -> exists r1 r2, exported vars "a1" i r1 /\ exported vars "a2" i r2 /\ lost_curve r1 /\ lost_curve r2.
Proof. exact peak_lost. Qed.
Print Assumptions C119_spin_magnitudes_refuted.
Theorem C119_chains_refuted : forall pe inj n events found mmin mmax ks rates dVcdz zm betaln posterior samples,
  data_ok pe inj n events found -> ks <> [] -> (forall k, In k ks -> same_peak_ranges mmin mmax (z_low events found) (z_high events found) k) -> peak_setup dVcdz pe inj = Ok zm ->
  (forall a b, 0 < a -> 0 < b -> exists l, betaln (Fin a) (Fin b) = Fin l) -> peak_posterior posterior ks rates ->
  samples <> length ks -> peak_export betaln posterior (Fin mmin) (Fin mmax) zm samples = Err ValueError.
Proof. exact peak_chains. Qed.
Print Assumptions C119_chains_refuted.
(** a draw in the ranges of the example's priors *)
Definition C119_draw (x : R) (s : string) : R :=
  if String.eqb s "mu_a1" || String.eqb s "mu_a2" then 1/3 else if String.eqb s "var_a1" || String.eqb s "var_a2" then 1/5 else
  if String.eqb s "alpha" then -2 else if String.eqb s "beta" then 1 else if String.eqb s "mu_peak" then 35 + x else 1/2.
Definition C119_pops : list peak := map (fun x => drawn_peak 5 50 (fun z => z) (z_low C115_events C115_found) (z_high C115_events C115_found) (C119_draw x) 2 2) [0; 1].
Definition C119_posterior : dict samples_of :=
  let nums f := Numbers (map (fun k => Fin (f k)) C119_pops) in
  [("alpha", nums k_alpha); ("beta", nums k_beta); ("mu_peak", nums k_mu); ("sig_peak", nums k_sig); ("lambda_m", nums k_lam);
   ("alpha_a1", nums (fun k => k_mu1 k * k_v1 k)); ("beta_a1", nums (fun k => (1 - k_mu1 k) * k_v1 k)); ("alpha_a2", nums (fun k => k_mu2 k * k_v2 k)); ("beta_a2", nums (fun k => (1 - k_mu2 k) * k_v2 k));
   ("sig_ct1", nums k_s1); ("lambda_ct1", nums k_x1); ("sig_ct2", nums k_s2); ("lambda_ct2", nums k_x2); ("lamb", nums k_lamb); ("rate", Numbers [Fin 20; Fin 30])].
Example C119_case : data_ok C115_pe C115_inj 2 C115_events C115_found /\
  (forall k, In k C119_pops -> same_peak_ranges 5 50 (z_low C115_events C115_found) (z_high C115_events C115_found) k /\ k_v1 k <= 1 /\ k_v2 k <= 1) /\ peak_posterior C119_posterior C119_pops [20; 30].
Proof.
  destruct C115_case as (HT & _). 
  assert (ZL : z_low C115_events C115_found = 1) by (unfold z_low, grid_lo; cbn; rewrite Rmin_left, Rmax_left by lra; reflexivity).
  assert (ZH : z_high C115_events C115_found = 2) by (unfold z_high, grid_hi; cbn; rewrite Rmax_right, Rmin_left by lra; reflexivity).
  split; [|split].
  - split; [exact HT|]. split; [lia|]. split; [discriminate|]. split; [discriminate|]. intros b Hb. cbn in Hb. repeat (destruct Hb as [<-|Hb]; [cbn; lra|]). destruct Hb.
  - intros k Hk. unfold C119_pops in Hk. rewrite ZL, ZH in *. cbn [map In] in Hk. unfold same_peak_ranges. destruct Hk as [<-|[<-|[]]]; cbn; lra.
  - unfold peak_posterior. repeat match goal with |- _ /\ _ => split end; reflexivity.
Qed.
