(** Properties C84, C85: posterior predictive curves and rate evolution curves. *)
From Verif Require Import PPostprocess PPostprocess2 PPostprocess3 PPostprocess4 PPostprocess5 PPostprocessBeta SpecPostprocess.
From Verif Require Import Spec.
Open Scope R_scope.

(** C84 *)
Theorem C84_tilt_curves : forall draws rate frac, one_per_draw (length draws) rate -> one_per_draw (length draws) frac ->
  (forall sig lam, In (sig, lam) draws -> 0 < sig /\ 0 <= lam <= 1) ->
  let ct := rlinspace (-1) 1 800 in
  exists cs, calculate_mixture_iso_aligned_spin_tilt (map (fun d => (Fin (fst d), Fin (snd d))) draws) (given rate) (given frac) = Ok (cs, map Fin ct) /\ length cs = length draws /\
    forall i sig lam, nth_error draws i = Some (sig, lam) -> exists g, (forall x, -1 <= x <= 1 -> mixture_isoalign_spin_tilt (Fin x) (Fin lam) (Fin sig) = Fin (g x)) /\
      rate_curve ct g (total_rate rate frac i) (nth i cs []).
Proof. exact tilt_curves. Qed.
Print Assumptions C84_tilt_curves.
Theorem C84_beta_curves_partial : forall betaln amax draws rate frac, one_per_draw (length draws) rate -> one_per_draw (length draws) frac -> 0 < amax ->
  (forall a b, In (a, b) draws -> exists lnB, betaln (Fin a) (Fin b) = Fin lnB) ->
  let aa := rlinspace 0 amax 800 in
  exists cs, calculate_beta_spin_mag betaln (Fin amax) (map (fun d => (Fin (fst d), Fin (snd d))) draws) (given rate) (given frac) = Ok (cs, map Fin aa) /\ length cs = length draws /\
    forall i a b, nth_error draws i = Some (a, b) -> 1 < a -> 1 < b ->
      exists g, (forall x, 0 <= x <= amax -> betadist betaln (Fin x) (Fin a) (Fin b) (Fin amax) (Fin 0) = Fin (g x)) /\ rate_curve aa g (total_rate rate frac i) (nth i cs []).
Proof. exact beta_good. Qed.
Print Assumptions C84_beta_curves_partial.
(** whatever the other draws and the rates, the curve of a draw with alpha <= 1 (a uniform or singular Beta) starts with NaN and that of a draw with beta <= 1 ends with NaN *)
Theorem C84_beta_curves_refuted : forall betaln amax draws rate frac, one_per_draw (length draws) rate -> one_per_draw (length draws) frac -> 0 < amax ->
  (forall a b, In (a, b) draws -> exists lnB, betaln (Fin a) (Fin b) = Fin lnB) ->
  exists cs, calculate_beta_spin_mag betaln (Fin amax) (map (fun d => (Fin (fst d), Fin (snd d))) draws) (given rate) (given frac) = Ok (cs, map Fin (rlinspace 0 amax 800)) /\ length cs = length draws /\
    forall i a b, nth_error draws i = Some (a, b) -> (a <= 1 -> nth 0 (nth i cs []) (Fin 0) = NaN) /\ (b <= 1 -> last (nth i cs []) (Fin 0) = NaN).
Proof. exact beta_bad. Qed.
Print Assumptions C84_beta_curves_refuted.
Theorem C84_spline_spin_curves_iid : forall n_a n_t draws rate frac, (4 <= n_a)%nat -> (4 <= n_t)%nat -> wide_range KLogY n_a 4 0 1 -> wide_range KLogY n_t 4 (-1) 1 ->
  one_per_draw (length draws) rate -> one_per_draw (length draws) frac -> (forall a t, In (a, t) draws -> log_coefs n_a a /\ log_coefs n_t t) ->
  let aa := rlinspace 0 1 800 in let cc := rlinspace (-1) 1 800 in
  exists ac tc, calculate_bspline_spin_ppds_iid n_a n_t (map (fun d => (map Fin (fst d), map Fin (snd d))) draws) (given rate) (given frac) = Ok (ac, map Fin aa, tc, map Fin cc) /\
    length ac = length draws /\ length tc = length draws /\ forall i a t, nth_error draws i = Some (a, t) -> exists g k,
      (forall x, 0 <= x <= 1 -> density_at KLogY (Fin 0, Fin 1) no_opts n_a (map Fin a) (Fin x) (Fin (g x))) /\
      (forall x, -1 <= x <= 1 -> density_at KLogY (Fin (-1), Fin 1) no_opts n_t (map Fin t) (Fin x) (Fin (k x))) /\
      rate_curve aa g (total_rate rate frac i) (nth i ac []) /\ rate_curve cc k (total_rate rate frac i) (nth i tc []).
Proof. exact spins_iid. Qed.
Print Assumptions C84_spline_spin_curves_iid.
Theorem C84_spline_spin_curves_independent : forall n1 n2 m1 m2 draws rate frac, (4 <= n1)%nat -> (4 <= n2)%nat -> (4 <= m1)%nat -> (4 <= m2)%nat ->
  wide_range KLogY n1 4 0 1 -> wide_range KLogY n2 4 0 1 -> wide_range KLogY m1 4 (-1) 1 -> wide_range KLogY m2 4 (-1) 1 ->
  one_per_draw (length draws) rate -> one_per_draw (length draws) frac ->
  (forall a1 t1 a2 t2, In (a1, t1, a2, t2) draws -> log_coefs n1 a1 /\ log_coefs m1 t1 /\ log_coefs n2 a2 /\ log_coefs m2 t2) ->
  let aa := rlinspace 0 1 800 in let cc := rlinspace (-1) 1 800 in
  exists ac1 ac2 tc1 tc2, calculate_bspline_spin_ppds_independent n1 n2 m1 m2
      (map (fun '(a1, t1, a2, t2) => (map Fin a1, map Fin t1, map Fin a2, map Fin t2)) draws) (given rate) (given frac) = Ok (ac1, ac2, map Fin aa, tc1, tc2, map Fin cc) /\
    length ac1 = length draws /\ length ac2 = length draws /\ length tc1 = length draws /\ length tc2 = length draws /\ forall i a1 t1 a2 t2, nth_error draws i = Some (a1, t1, a2, t2) -> exists g1 g2 k1 k2,
      (forall x, 0 <= x <= 1 -> density_at KLogY (Fin 0, Fin 1) no_opts n1 (map Fin a1) (Fin x) (Fin (g1 x)) /\ density_at KLogY (Fin 0, Fin 1) no_opts n2 (map Fin a2) (Fin x) (Fin (g2 x))) /\
      (forall x, -1 <= x <= 1 -> density_at KLogY (Fin (-1), Fin 1) no_opts m1 (map Fin t1) (Fin x) (Fin (k1 x)) /\ density_at KLogY (Fin (-1), Fin 1) no_opts m2 (map Fin t2) (Fin x) (Fin (k2 x))) /\
      rate_curve aa g1 (total_rate rate frac i) (nth i ac1 []) /\ rate_curve aa g2 (total_rate rate frac i) (nth i ac2 []) /\
      rate_curve cc k1 (total_rate rate frac i) (nth i tc1 []) /\ rate_curve cc k2 (total_rate rate frac i) (nth i tc2 []).
Proof. exact spins_independent. Qed.
Print Assumptions C84_spline_spin_curves_independent.
Theorem C84_powerlaw_peak_mass_curves : forall mmin mmax, 0 < mmin < mmax -> forall draws rate frac, one_per_draw (length draws) rate -> one_per_draw (length draws) frac ->
  (forall a b mp sig lam, In (a, b, mp, sig, lam) draws -> 0 < sig /\ 0 <= lam <= 1) ->
  exists mc qc, calculate_powerlaw_peak_mass_ppds (Fin mmin) (Fin mmax) (map (fun '(a, b, mp, sig, lam) => (Fin a, Fin b, Fin mp, Fin sig, Fin lam)) draws) (given rate) (given frac)
      = Ok (mc, map Fin (rlinspace mmin mmax 800), qc, map Fin (rlinspace (mmin / mmax) 1 800)) /\ length mc = length draws /\ length qc = length draws /\
    forall i a b mp sig lam, nth_error draws i = Some (a, b, mp, sig, lam) -> exists J,
      cut_joint mmin mmax (fun m2 => mmin < m2) (fun m q => plpeak_primary_ratio_pdf (Fin m) (Fin q) (Fin a) (Fin b) (Fin mmin) (Fin mmax) (Fin mp) (Fin sig) (Fin lam) None) J /\
      mass_rate_curves mmin mmax J (total_rate rate frac i) (nth i mc []) (nth i qc []).
Proof. exact plpeak_masses. Qed.
Print Assumptions C84_powerlaw_peak_mass_curves.
Theorem C84_spline_mass_curves : forall mmin mmax, 0 < mmin < mmax -> forall n_m n_q draws rate frac, (4 <= n_m)%nat -> (4 <= n_q)%nat ->
  wide_range KLogXLogY n_m 4 mmin mmax -> wide_range KLogY n_q 4 (mmin / mmax) 1 ->
  one_per_draw (length draws) rate -> one_per_draw (length draws) frac -> (forall m q, In (m, q) draws -> log_coefs n_m m /\ log_coefs n_q q) ->
  exists mc qc, calculate_bspline_mass_ppds n_m n_q (Fin mmin) (Fin mmax) (map (fun d => (map Fin (fst d), map Fin (snd d))) draws) (given rate) (given frac)
      = Ok (mc, map Fin (rlinspace mmin mmax 800), qc, map Fin (rlinspace (mmin / mmax) 1 800)) /\ length mc = length draws /\ length qc = length draws /\
    forall i cm cq, nth_error draws i = Some (cm, cq) -> exists pm pq J,
      (forall m, mmin <= m <= mmax -> density_at KLogXLogY (Fin mmin, Fin mmax) no_opts n_m (map Fin cm) (Fin m) (Fin (pm m))) /\
      (forall q, mmin / mmax <= q <= 1 -> density_at KLogY (Fin (mmin / mmax), Fin 1) no_opts n_q (map Fin cq) (Fin q) (Fin (pq q))) /\
      cut_joint mmin mmax (fun m2 => mmin < m2) (fun m q => Fin (pm m * pq q)) J /\
      mass_rate_curves mmin mmax J (total_rate rate frac i) (nth i mc []) (nth i qc []).
Proof. exact spline_masses. Qed.
Print Assumptions C84_spline_mass_curves.
Theorem C84_log_peak_mass_curves : forall mmin mmax, 0 < mmin < mmax -> forall n_q draws rate frac, (4 <= n_q)%nat -> wide_range KLogY n_q 4 (mmin / mmax) 1 ->
  one_per_draw (length draws) rate -> one_per_draw (length draws) frac -> (forall mu sig q, In (mu, sig, q) draws -> 0 < sig /\ log_coefs n_q q) ->
  exists mc qc, calculate_peak_logm1_bspline_q_ppds n_q (Fin mmin) (Fin mmax) (map (fun '(mu, sig, q) => (Fin mu, Fin sig, map Fin q)) draws) (given rate) (given frac)
      = Ok (mc, map Fin (rlinspace mmin mmax 800), qc, map Fin (rlinspace (mmin / mmax) 1 800)) /\ length mc = length draws /\ length qc = length draws /\
    forall i mu sig cq, nth_error draws i = Some (mu, sig, cq) -> exists pm pq J,
      (forall m, mmin <= m <= mmax -> truncnorm_pdf (Fin m) (Fin mu) (Fin sig) (Fin mmin) (Fin mmax) true = Fin (pm m)) /\
      (forall q, mmin / mmax <= q <= 1 -> density_at KLogY (Fin (mmin / mmax), Fin 1) no_opts n_q (map Fin cq) (Fin q) (Fin (pq q))) /\
      cut_joint mmin mmax (fun m2 => mmin <= m2) (fun m q => Fin (pm m * pq q)) J /\
      mass_rate_curves mmin mmax J (total_rate rate frac i) (nth i mc []) (nth i qc []).
Proof. exact peak_masses. Qed.
Print Assumptions C84_log_peak_mass_curves.
(** hypotheses met: two draws with rates; a spline draw; a power-law draw *)
Example C84_case_tilt : one_per_draw 2 (Some [20; 30]) /\ one_per_draw 2 None /\ total_rate (Some [20; 30]) None 1 = 30 /\
  (forall sig lam, In (sig, lam) [(1/2, 1/4); (1, 0)] -> 0 < sig /\ 0 <= lam <= 1).
Proof.
  split; [reflexivity|]. split; [exact I|]. split; [unfold total_rate; cbn; ring|].
  intros sig lam [H|[H|[]]]; injection H as <- <-; lra.
Qed.
Example C84_case_spline : wide_range KLogY 4 4 0 1 /\ wide_range KLogY 4 4 (-1) 1 /\ wide_range KLogY 4 4 (5 / 100) 1 /\ log_coefs 4 [1; -2; 0; 3].
Proof.
  unfold wide_range, coord. cbn [logx]. change (4 + 1 - 4)%nat with 1%nat. cbn [INR]. split; [lra|]. split; [lra|]. split; [lra|].
  split; [reflexivity|]. intros v H. unfold FMAX. cbn in H. destruct H as [<-|[<-|[<-|[<-|[]]]]]; lra.
Qed.
Example C84_case_beta : exists betaln : num -> num -> num, (forall a b, In (a, b) [(2, 2); (1, 1)] -> exists lnB, betaln (Fin a) (Fin b) = Fin lnB) /\
  nth_error [(2, 2); (1, 1)] 0 = Some (2, 2) /\ 1 < 2 /\ nth_error [(2, 2); (1, 1)] 1 = Some (1, 1) /\ 1 <= 1.
Proof. exists (fun a _ => if neqb a (Fin 1) then Fin 0 else Fin (ln (1/6))). split; [intros a b [H|[H|[]]]; injection H as <- <-; destruct (neqb _ _); eauto|]. repeat split; lra. Qed.

(** C85 *)
Theorem C85_powerlaw_rate_curves : forall dVcdz p0 pe i0 inj lamb rate frac, Forall (fun z => -1 < z) (p0 :: pe) -> Forall (fun z => -1 < z) (i0 :: inj) -> grid_lo p0 pe i0 inj <= grid_hi p0 pe i0 inj ->
  length rate = length lamb -> one_per_draw (length lamb) frac ->
  let zs := rlinspace (grid_lo p0 pe i0 inj) (grid_hi p0 pe i0 inj) 1000 in
  exists cs, calculate_powerlaw_rate_of_z_ppds (redshift_model_init dVcdz (Fin p0) (map Fin pe) (Fin i0) (map Fin inj)) (map Fin lamb) (map Fin rate) (given frac) = Ok (cs, map Fin zs) /\
    length cs = length lamb /\ forall i la, nth_error lamb i = Some la -> nth i cs [] = map (fun z => Fin (total_rate (Some rate) frac i * Rpower (1 + z) la)) zs.
Proof. exact rate_of_z. Qed.
Print Assumptions C85_powerlaw_rate_curves.
Theorem C85_rate_at_zero : forall dVcdz p0 pe i0 inj lamb rate frac, Forall (fun z => -1 < z) (p0 :: pe) -> Forall (fun z => -1 < z) (i0 :: inj) -> grid_lo p0 pe i0 inj = 0 -> 0 <= grid_hi p0 pe i0 inj ->
  length rate = length lamb -> one_per_draw (length lamb) frac ->
  exists cs zs, calculate_powerlaw_rate_of_z_ppds (redshift_model_init dVcdz (Fin p0) (map Fin pe) (Fin i0) (map Fin inj)) (map Fin lamb) (map Fin rate) (given frac) = Ok (cs, zs) /\
    nth 0 zs NaN = Fin 0 /\ forall i, (i < length lamb)%nat -> nth 0 (nth i cs []) NaN = Fin (total_rate (Some rate) frac i).
Proof. exact rate_at_zero. Qed.
Print Assumptions C85_rate_at_zero.
Theorem C85_spline_rate_curves : forall dVcdz s n p0 pe i0 inj m draws rate frac, s = KB \/ s = KLogX -> (4 <= n)%nat ->
  -1 < grid_lo p0 pe i0 inj < grid_hi p0 pe i0 inj -> (logx s = true -> 0 < grid_lo p0 pe i0 inj) ->
  make_plz_model dVcdz s n (Fin p0) (map Fin pe) (Fin i0) (map Fin inj) = Ok m ->
  length rate = length draws -> one_per_draw (length draws) frac -> (forall la c, In (la, c) draws -> length c = (n - 1)%nat) ->
  let zs := rlinspace (grid_lo p0 pe i0 inj) (grid_hi p0 pe i0 inj) 1000 in
  exists cs, calculate_powerlaw_spline_rate_of_z_ppds m (map (fun d => (Fin (fst d), map Fin (snd d))) draws) (map Fin rate) (given frac) = Ok (cs, map Fin zs) /\
    length cs = length draws /\ forall i la c, nth_error draws i = Some (la, c) -> exists S,
      (forall z, In z zs -> eval (y_sp m) (Fin z :: nil) (map Fin (0 :: c)) = Ok (Fin (S z) :: nil)) /\ ((forall v, In v c -> v = 0) -> forall z, In z zs -> S z = 0) /\
      nth i cs [] = map (fun z => Fin (total_rate (Some rate) frac i * Rpower (1 + z) la * exp (S z))) zs.
Proof. exact spline_rate_of_z. Qed.
Print Assumptions C85_spline_rate_curves.
Theorem C85_zero_coefficients : forall dVcdz s n p0 pe i0 inj m draws rate frac, s = KB \/ s = KLogX -> (4 <= n)%nat ->
  Forall (fun z => -1 < z) (p0 :: pe) -> Forall (fun z => -1 < z) (i0 :: inj) -> -1 < grid_lo p0 pe i0 inj < grid_hi p0 pe i0 inj -> (logx s = true -> 0 < grid_lo p0 pe i0 inj) ->
  make_plz_model dVcdz s n (Fin p0) (map Fin pe) (Fin i0) (map Fin inj) = Ok m ->
  length rate = length draws -> one_per_draw (length draws) frac -> (forall la c, In (la, c) draws -> length c = (n - 1)%nat /\ forall v, In v c -> v = 0) ->
  calculate_powerlaw_spline_rate_of_z_ppds m (map (fun d => (Fin (fst d), map Fin (snd d))) draws) (map Fin rate) (given frac) =
  calculate_powerlaw_rate_of_z_ppds (redshift_model_init dVcdz (Fin p0) (map Fin pe) (Fin i0) (map Fin inj)) (map (fun d => Fin (fst d)) draws) (map Fin rate) (given frac).
Proof. exact zero_coefs_same. Qed.
Print Assumptions C85_zero_coefficients.
Example C85_case : grid_lo 0 [1; 2] 0 [3] = 0 /\ grid_hi 0 [1; 2] 0 [3] = 2 /\ Forall (fun z => -1 < z) [0; 1; 2] /\ exists m, make_plz_model (fun x => x) KB 6 (Fin 0) (map Fin [1; 2]) (Fin 0) (map Fin [3]) = Ok m.
Proof.
  assert (L : grid_lo 0 [1; 2] 0 [3] = 0) by (unfold grid_lo; cbn; unfold Rmin, Rmax; repeat destruct (Rle_dec _ _); lra).
  assert (H : grid_hi 0 [1; 2] 0 [3] = 2) by (unfold grid_hi; cbn; unfold Rmin, Rmax; repeat destruct (Rle_dec _ _); lra).
  split; auto. split; auto. split; [repeat constructor; lra|]. unfold make_plz_model. rewrite init_fin. cbn [zm_min zm_max zm_zs]. rewrite L, H.
  destruct (PBSplineMake.make_default KB 6 4 0 2 false ltac:(lia)) as (sp & E & _); [split; [lra|discriminate]|]. rewrite E. cbn [rbind]. eauto.
Qed.
