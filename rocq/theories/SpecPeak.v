(** The power-law-peak population in elementary terms: what its likelihood should be. *)
From Coquelicot Require Import Coquelicot.
From Verif Require Export MPeak SpecFit Spec2.
Open Scope R_scope.
Open Scope string_scope.
Open Scope list_scope.

(** x^alpha on [lo, hi], normalised *)
Definition power_pdf (alpha lo hi x : R) : R :=
  if (Rleb lo x && Rleb x hi)%bool then Rpower x alpha / RInt (fun t => Rpower t alpha) lo hi else 0.
(** the normal density on [lo, hi], normalised *)
Definition bell (mu sig x : R) : R := exp (- (x - mu) ^ 2 / (2 * sig ^ 2)).
Definition bell_pdf (mu sig lo hi x : R) : R := if (Rleb lo x && Rleb x hi)%bool then bell mu sig x / RInt (bell mu sig) lo hi else 0.
(** x^(a-1) (1-x)^(b-1), normalised by its integral B *)
Definition shape_pdf (a b B x : R) : R := Rpower x (a - 1) * Rpower (1 - x) (b - 1) / B.

(** a population: mass spectrum, spin magnitudes (mean and sum of the shapes, and normalisation), tilts, redshift evolution *)
Record peak := Peak { k_mmin : R; k_mmax : R; k_alpha : R; k_beta : R; k_mu : R; k_sig : R; k_lam : R;
  k_mu1 : R; k_v1 : R; k_B1 : R; k_mu2 : R; k_v2 : R; k_B2 : R; k_x1 : R; k_x2 : R; k_s1 : R; k_s2 : R;
  k_lamb : R; k_vol : R -> R; k_zlo : R; k_zhi : R }.
Definition k_mass k m := (1 - k_lam k) * power_pdf (k_alpha k) (k_mmin k) (k_mmax k) m + k_lam k * bell_pdf (k_mu k) (k_sig k) (k_mmin k) (k_mmax k) m.
Definition k_ratio k m q := power_pdf (k_beta k) (k_mmin k / m) 1 q.
Definition k_tilt x s c := (1 - x) / 2 + x * bell_pdf 1 s (-1) 1 c.
Definition k_z k z := if Rleb z (k_zhi k) then scaled_on (rlinspace (k_zlo k) (k_zhi k) 1000) (fun z => k_vol k z * Rpower (1 + z) (k_lamb k - 1)) z else 0.
Definition peak_pdf_over_prior (k : peak) (b : binary) : R :=
  k_mass k (b_m1 b) * k_ratio k (b_m1 b) (b_q b) *
  (shape_pdf (k_mu1 k * k_v1 k) ((1 - k_mu1 k) * k_v1 k) (k_B1 k) (b_a1 b) * shape_pdf (k_mu2 k * k_v2 k) ((1 - k_mu2 k) * k_v2 k) (k_B2 k) (b_a2 b)) *
  (k_tilt (k_x1 k) (k_s1 k) (b_c1 b) * k_tilt (k_x2 k) (k_s2 k) (b_c2 b)) * k_z k (b_z b) / b_prior b.
(** parameters in the ranges of their priors; B1 and B2 are the Beta integrals of the shapes *)
Definition peak_ok (k : peak) : Prop :=
  0 < k_mmin k < k_mmax k /\ 0 < k_sig k /\ 0 <= k_lam k <= 1 /\ 0 < k_mu1 k < 1 /\ 0 < k_v1 k /\ 0 < k_mu2 k < 1 /\ 0 < k_v2 k /\
  0 <= k_x1 k <= 1 /\ 0 <= k_x2 k <= 1 /\ 0 < k_s1 k /\ 0 < k_s2 k /\ 0 < k_zlo k < k_zhi k /\ (forall z, 0 < z -> 0 < k_vol k z) /\
  beta_integral_open (k_mu1 k * k_v1 k) ((1 - k_mu1 k) * k_v1 k) (k_B1 k) /\ beta_integral_open (k_mu2 k * k_v2 k) ((1 - k_mu2 k) * k_v2 k) (k_B2 k).
(** the binary lies where the population lives *)
Definition peak_covers (k : peak) (b : binary) : Prop := k_mmin k < b_m1 b <= k_mmax k /\ k_mmin k / b_m1 b <= b_q b <= 1 /\ b_z b <= k_zhi k.
(** a physical binary with positive redshift and sampling prior, not exactly at a corner where the density is infinite *)
Definition physical (k : peak) (b : binary) : Prop :=
  0 < b_m1 b /\ 0 < b_a1 b < 1 /\ 0 < b_a2 b < 1 /\ -1 <= b_c1 b <= 1 /\ -1 <= b_c2 b <= 1 /\ 0 < b_z b /\ 0 < b_prior b /\ ~ (b_m1 b = k_mmin k /\ b_q b = 1).
(** the population drawn at the model's sites *)
Definition drawn_peak (mmin mmax : R) (v : R -> R) (zlo zhi : R) (draw : string -> R) (B1 B2 : R) : peak :=
  Peak mmin mmax (draw "alpha") (draw "beta") (draw "mu_peak") (draw "sig_peak") (draw "lambda_m") (draw "mu_a1") (draw "var_a1") B1 (draw "mu_a2") (draw "var_a2") B2
    (draw "lambda_ct1") (draw "lambda_ct2") (draw "sig_ct1") (draw "sig_ct2") (draw "lamb") v zlo zhi.
(** the log-likelihood of a population whose density over the sampling prior is w (compare [log_likelihood]) *)
Definition log_likelihood_of (a : hl_args) (w : binary -> R) (events : list (list binary)) (found : list binary) (N : R) : R :=
  let nobs := INR (length events) in let ws := map w found in
  Rlsum (map (fun e => ln (mean (map w e))) events) - nobs * ln (mc_mu N ws)
  + (if marginalize_selection a then nobs * (3 + nobs) / (2 * mc_neff N ws) else 0).
(** enough effective samples for the cuts that are switched on *)
Definition cuts_pass (a : hl_args) (n : nat) (w : binary -> R) (events : list (list binary)) (found : list binary) (N : R) : Prop :=
  let rows := map (map w) events in let ws := map w found in
  (min_neff_cut a = true -> 4 * INR (length events) <= mc_neff N ws /\ forall r, In r rows -> INR (length events) < ess r) /\
  (max_variance_cut a = true -> INR (length events) ^ 2 * (/ mc_neff N ws - / N) + Rlsum (map (fun r => / ess r - / INR n) rows) <= 1).
Definition peak_fit_ok (a : hl_args) (n : nat) (events : list (list binary)) (found : list binary) (N : R) (k : peak) : Prop :=
  call_ok a n events found N /\ peak_ok k /\ (forall b, In b (concat events ++ found) -> physical k b) /\
  (forall e, In e events -> exists b, In b e /\ peak_covers k b) /\ (exists b, In b found /\ peak_covers k b) /\
  cuts_pass a n (peak_pdf_over_prior k) events found N.
(** the columns at one binary; the same binary with another first spin magnitude *)
Definition row (b : binary) : list num := map (fun cf => Fin (snd cf b)) columns.
Definition with_spin (s : R) (b : binary) : binary := SpecFit.Binary (b_m1 b) (b_q b) s (b_a2 b) (b_c1 b) (b_c2 b) (b_z b) (b_prior b).
