(** Constant factors in the sampling priors of the power-law-peak fit. *)
From Coq Require Import Lra Lia.
From Verif Require Export PPeak.
From Verif Require Import PFit PAnalysisSums PAnalysisCuts PAnalysisSums SpecFit SpecPeak Calc.
From Verif Require Import Spec.
Open Scope R_scope.
Open Scope string_scope.
Open Scope list_scope.

Section Reprior.
Variables (a : hl_args) (n : nat) (events : list (list binary)) (found : list binary) (N : R) (k : peak) (c1 c2 : R).
Hypotheses (F : peak_fit_ok a n events found N k) (H1 : 0 < c1) (H2 : 0 < c2).
Let w := peak_pdf_over_prior k.

Lemma peak_weight_reprior c b : c <> 0 -> b_prior b <> 0 -> w (reprior c b) = / c * w b.
Proof. intros HC HB. unfold w, peak_pdf_over_prior, reprior. cbn [b_m1 b_q b_a1 b_a2 b_c1 b_c2 b_z b_prior]. field. auto. Qed.
Lemma row_reprior c l : 0 < c -> (forall b, In b l -> physical k b) -> map w (map (reprior c) l) = map (fun x => / c * x) (map w l).
Proof. intros Hc H. rewrite !map_map. apply map_ext_in. intros b Hb. destruct (H b Hb) as (_ & _ & _ & _ & _ & _ & P & _). apply peak_weight_reprior; lra. Qed.
Lemma event_physical e : In e events -> forall b, In b e -> physical k b.
Proof. intros He b Hb. destruct F as (_ & _ & HP & _). apply HP, in_or_app. left. apply in_concat. eauto. Qed.
Lemma found_physical b : In b found -> physical k b.
Proof. intros Hb. destruct F as (_ & _ & HP & _). apply HP, in_or_app. auto. Qed.
Lemma row_positive l : (forall b, In b l -> physical k b) -> (exists b, In b l /\ peak_covers k b) -> 0 < Rlsum (map w l).
Proof.
  intros H (b & Hb & Cb). destruct F as (_ & OK & _). apply PAnalysisPPC.Rlsum_pos_ex.
  - intros x Hx. apply in_map_iff in Hx as (y & <- & Hy). apply peak_nonneg; auto.
  - exists (w b). split; [apply in_map; auto|]. apply peak_pos; auto.
Qed.
Lemma inv_nonzero c : 0 < c -> / c <> 0. Proof. intros Hc. apply Rinv_neq_0_compat. lra. Qed.

Lemma peak_likelihood_reprior :
  log_likelihood_of a w (map (map (reprior c1)) events) (map (reprior c2) found) N = log_likelihood_of a w events found N + INR (length events) * (ln c2 - ln c1).
Proof.
  pose proof F as ((K1 & K2 & K3 & K4 & K5 & K6 & K7 & _) & OK & _ & HE & HF & _). unfold log_likelihood_of. cbv zeta. rewrite map_length.
  rewrite (row_reprior c2 found H2 found_physical), mc_mu_scal, mc_neff_scal by (apply inv_nonzero; auto).
  assert (NP : 0 < N) by (pose proof (pos_INR (length found)); lra).
  assert (MP : 0 < mc_mu N (map w found)) by (unfold mc_mu; apply Rdiv_lt_0_compat; auto; apply row_positive; auto; apply found_physical).
  rewrite ln_mult, ln_Rinv by (auto; apply Rinv_0_lt_compat; auto).
  assert (EV : Rlsum (map (fun e => ln (mean (map w e))) (map (map (reprior c1)) events)) = Rlsum (map (fun e => ln (mean (map w e))) events) - INR (length events) * ln c1).
  { assert (S : forall e, In e events -> ln (mean (map w (map (reprior c1) e))) = ln (mean (map w e)) - ln c1).
    { intros e He. pose proof (event_physical e He) as PE. rewrite (row_reprior c1 e H1 PE). pose proof (row_positive e PE (HE e He)) as PS.
      assert (LP : 0 < INR (length (map w e))) by (apply lt_0_INR; destruct e; cbn in *; [lra|lia]).
      assert (ME : mean (map (fun x => / c1 * x) (map w e)) = / c1 * mean (map w e)).
      { unfold mean. rewrite (map_length (fun x => / c1 * x)). replace (Rlsum (map (fun x => / c1 * x) (map w e))) with (/ c1 * Rlsum (map w e)); [unfold Rdiv; ring|]. symmetry. rewrite (Rlsum_scalf (/ c1) (fun x => x)), map_id. reflexivity. }
      rewrite ME, ln_mult, ln_Rinv; auto; [ring|apply Rinv_0_lt_compat; auto|]. unfold mean. apply Rdiv_lt_0_compat; auto. }
    rewrite map_map. revert S. generalize events as l. clear. induction l as [|e l IH]; intros S; [cbn; ring|]. cbn [map length]. rewrite S_INR. unfold Rlsum in *. cbn [fold_right]. rewrite IH by (intros; apply S; right; auto). rewrite S by (left; auto). ring. }
  rewrite EV. ring.
Qed.
Lemma peak_fit_reprior : peak_fit_ok a n (map (map (reprior c1)) events) (map (reprior c2) found) N k.
Proof.
  pose proof F as ((K1 & K2 & K3 & K4 & K5 & K6 & K7 & K8 & K9) & OK & HP & HE & HF & HC1 & HC2).
  split; [|split; [exact OK|split; [|split; [|split; [|split]]]]].
  - unfold call_ok. rewrite !map_length. repeat match goal with |- _ /\ _ => split end; auto. destruct events; [congruence|discriminate].
  - rewrite <- concat_map. intros b Hb. assert (G : forall c b', 0 < c -> physical k b' -> physical k (reprior c b')).
    { intros c b' Hc (P1 & P2 & P3 & P4 & P5 & P6 & P7 & P8). unfold physical, reprior. cbn [b_m1 b_q b_a1 b_a2 b_c1 b_c2 b_z b_prior]. repeat match goal with |- _ /\ _ => split end; auto; try lra. apply Rmult_lt_0_compat; auto. }
    apply in_app_or in Hb as [Hb|Hb]; apply in_map_iff in Hb as (b' & <- & Hb'); apply G; auto; apply HP, in_or_app; auto.
  - intros e He. apply in_map_iff in He as (e' & <- & He'). destruct (HE e' He') as (b & Hb & Cb). exists (reprior c1 b). split; [apply in_map; auto|exact Cb].
  - destruct HF as (b & Hb & Cb). exists (reprior c2 b). split; [apply in_map; auto|exact Cb].
  - fold w in HC1, HC2 |- *. rewrite map_length, (row_reprior c2 found H2 found_physical), mc_neff_scal by (apply inv_nonzero; auto). intros E. destruct (HC1 E) as [Q1 Q2]. split; [exact Q1|]. intros r Hr. rewrite map_map in Hr. apply in_map_iff in Hr as (e & <- & He).
    rewrite (row_reprior c1 e H1 (event_physical e He)), ess_scal by (apply inv_nonzero; auto). apply Q2. apply in_map; auto.
  - fold w in HC1, HC2 |- *. rewrite map_length, (row_reprior c2 found H2 found_physical), mc_neff_scal by (apply inv_nonzero; auto). intros E. specialize (HC2 E). rewrite !map_map in *.
    rewrite (map_ext_in (fun e => / ess (map w (map (reprior c1) e)) - / INR n) (fun e => / ess (map w e) - / INR n)); [exact HC2|].
    intros e He. rewrite (row_reprior c1 e H1 (event_physical e He)), ess_scal by (apply inv_nonzero; auto). reflexivity.
Qed.
End Reprior.

Lemma peak_prior_constants keywords betaln dVcdz v draw a d pe inj pe' inj' n events found mmin mmax N B1 B2 c1 c2 :
  binds likelihood_parameters 5 keywords = true -> tables_hold pe inj n events found -> tables_hold pe' inj' n (map (map (reprior c1)) events) (map (reprior c2) found) -> 0 < c1 -> 0 < c2 ->
  (forall z, -1 < z -> dVcdz (Fin z) = Fin (v z)) ->
  let k := drawn_peak mmin mmax v (z_low events found) (z_high events found) draw B1 B2 in
  betaln (Fin (k_mu1 k * k_v1 k)) (Fin ((1 - k_mu1 k) * k_v1 k)) = Fin (ln B1) -> betaln (Fin (k_mu2 k * k_v2 k)) (Fin ((1 - k_mu2 k) * k_v2 k)) = Fin (ln B2) ->
  peak_fit_ok a n events found N k ->
  let likelihood pe inj zm := factors (fst (peak_example_with betaln dVcdz (fun s => Fin (draw s)) zm (Fin mmin) (Fin mmax) keywords a d pe inj)) in
  exists zm zm' l, peak_setup dVcdz pe inj = Ok zm /\ peak_setup dVcdz pe' inj' = Ok zm' /\
    likelihood pe inj zm = (Site Factor "log_likelihood" (Scal (Fin l)) :: nil) /\
    likelihood pe' inj' zm' = (Site Factor "log_likelihood" (Scal (Fin (l + INR (length events) * (ln c2 - ln c1)))) :: nil).
Proof.
  intros HB HT HT' P1 P2 HV k E1 E2 F likelihood. unfold likelihood.
  destruct (peak_fit keywords betaln dVcdz v draw a d pe inj n events found mmin mmax N B1 B2 HB HT HV E1 E2 F) as (zm & S1 & L1).
  pose proof (peak_fit_reprior _ _ _ _ _ _ _ _ F P1 P2) as F'. destruct (reprior_z c1 c2 events found) as [Z1 Z2].
  pose proof (peak_fit keywords betaln dVcdz v draw a d pe' inj' n (map (map (reprior c1)) events) (map (reprior c2) found) mmin mmax N B1 B2 HB HT' HV) as G. cbv zeta in G. rewrite Z1, Z2 in G. fold k in G. specialize (G E1 E2 F').
  destruct G as (zm' & S2 & L2). exists zm, zm'. eexists. split; [exact S1|]. split; [exact S2|]. split; [exact L1|]. rewrite L2. rewrite (peak_likelihood_reprior _ _ _ _ _ _ _ _ F P1 P2). reflexivity.
Qed.
