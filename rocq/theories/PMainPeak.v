(** The curves exported after a power-law-peak fit. *)
From Coq Require Import Lra Lia.
From Verif Require Import PMain PPostprocess PPostprocess2 PPostprocess3 PPostprocess4 PPostprocess5 PDistributions PParametric PFit PPeak PUtils ArrFacts NumFacts.
From Verif Require Import SpecMain Spec.
Open Scope R_scope.
Open Scope string_scope.
Open Scope list_scope.

(** ** infinite normalisation *)
Definition nonneg_or_inf (v : num) : Prop := v = PInf \/ exists r, 0 <= r /\ v = Fin r.
Lemma nonneg_add a b : nonneg_or_inf a -> nonneg_or_inf b -> nonneg_or_inf (nadd a b) /\ (a = PInf \/ b = PInf -> nadd a b = PInf).
Proof.
  intros [->|(r & Hr & ->)] [->|(s & Hs & ->)]; cbn; split; try (left; reflexivity); try reflexivity.
  - right. exists (r + s). split; [lra|reflexivity].
  - intros [E|E]; discriminate.
Qed.
Lemma nonneg_terms ys xs : Forall nonneg_or_inf ys -> increasing xs -> Forall nonneg_or_inf (ntrapz_terms ys (map Fin xs)).
Proof.
  revert xs. induction ys as [|y0 [|y1 ys] IH]; intros [|x0 [|x1 xs]] HY HX; try (constructor; fail).
  change (ntrapz_terms (y0 :: y1 :: ys) (map Fin (x0 :: x1 :: xs))) with (nmul (nsub (Fin x1) (Fin x0)) (nadd y1 y0) :: ntrapz_terms (y1 :: ys) (map Fin (x1 :: xs))). constructor.
  - inversion_clear HY as [|? ? Y0 HY']. inversion_clear HY' as [|? ? Y1 _]. destruct (proj1 (nonneg_add _ _ Y1 Y0)) as [->|(r & Hr & ->)]; destruct HX as [HX _]; rewrite nsub_fin.
    + left. cbn [nmul]. unfold sinf. rewrite Rltb_t by lra. reflexivity.
    + right. rewrite nmul_fin. eexists. split; [|reflexivity]. apply Rmult_le_pos; lra.
  - apply IH; [inversion HY; auto|destruct HX; auto].
Qed.
Lemma nonneg_sum l : Forall nonneg_or_inf l -> nonneg_or_inf (nsum l) /\ (hd (Fin 0) l = PInf -> nsum l = PInf).
Proof.
  assert (G : Forall nonneg_or_inf l -> nonneg_or_inf (nsum l)).
  { induction 1 as [|v l Hv _ IH]; [right; exists 0; split; [lra|reflexivity]|]. apply (nonneg_add v (nsum l)); auto. }
  intros H. split; auto. destruct l as [|v l]; cbn [hd]; [discriminate|]. intros ->. inversion_clear H as [|? ? _ Hl].
  apply (nonneg_add PInf (nsum l)); auto; [left; auto|]. clear - Hl. induction Hl as [|v l Hv _ IH]; [right; exists 0; split; [lra|reflexivity]|]. apply (nonneg_add v (nsum l)); auto.
Qed.
Lemma trapz_infinite y0 y1 ys x0 x1 xs : Forall nonneg_or_inf (y0 :: y1 :: ys) -> increasing (x0 :: x1 :: xs) -> y0 = PInf -> ntrapz (y0 :: y1 :: ys) (map Fin (x0 :: x1 :: xs)) = PInf.
Proof.
  intros HY HX E. unfold ntrapz. destruct (nonneg_sum _ (nonneg_terms _ _ HY HX)) as [_ K]. rewrite K; [cbn; unfold sinf; rewrite Rltb_t by lra; reflexivity|].
  cbn [map ntrapz_terms hd]. inversion_clear HY as [|? ? Y0 HY']. inversion_clear HY' as [|? ? Y1 _]. rewrite (proj2 (nonneg_add y1 y0 Y1 Y0)) by auto. destruct HX as [HX _].
  rewrite nsub_fin. cbn [nmul]. unfold sinf. rewrite Rltb_t by lra. reflexivity.
Qed.
Lemma betadist_inf_right betaln a b s lnB fl : betaln (Fin a) (Fin b) = Fin lnB -> 0 < s -> b < 1 -> betadist betaln (Fin s) (Fin a) (Fin b) (Fin s) fl = PInf.
Proof.
  intros HB Hs Hb. unfold betadist, nge. cbn [nle]. rewrite !Rleb_t by lra. cbn [andb nwhere]. rewrite HB. rewrite !nsub_fin. replace (s - s) with 0 by ring. rewrite nlog_zero, !nlog_fin by lra.
  rewrite nmul_fin. cbn [nmul]. rewrite sinf_neg by lra. reflexivity.
Qed.
Lemma beta_lost betaln a b lnB : betaln (Fin a) (Fin b) = Fin lnB -> a < 1 -> b < 1 ->
  lost_curve (spin_curve (map (fun x => betadist betaln x (Fin a) (Fin b) (Fin 1) (Fin 0)) (map Fin (rlinspace 0 1 800))) (map Fin (rlinspace 0 1 800)) (Fin 1) (Fin 1)).
Proof.
  intros HB Ha Hb. unfold lost_curve, spin_curve. cbv zeta. rewrite (map_map Fin (fun x => betadist betaln x (Fin a) (Fin b) (Fin 1) (Fin 0))). set (d := fun x : R => betadist betaln (Fin x) (Fin a) (Fin b) (Fin 1) (Fin 0)). change (map (fun x : R => betadist betaln (Fin x) (Fin a) (Fin b) (Fin 1) (Fin 0)) (rlinspace 0 1 800)) with (map d (rlinspace 0 1 800)).
  assert (D : forall x, 0 <= x <= 1 -> if (Rltb 0 x && Rltb x 1)%bool then exists r, 0 <= r /\ d x = Fin r else d x = PInf).
  { intros x Hx. destruct (Rlt_le_dec 0 x) as [L|L]; [rewrite (Rltb_t 0) by auto; destruct (Rlt_le_dec x 1) as [U|U]|].
    - rewrite Rltb_t by auto. cbn [andb]. eexists. split; [|apply (betadist_in betaln x a b 1 lnB); auto]. left. apply Rdiv_lt_0_compat; apply Rmult_lt_0_compat; apply exp_pos.
    - rewrite Rltb_f by auto. cbn [andb]. replace x with 1 by lra. apply (betadist_inf_right betaln a b 1 lnB); auto; lra.
    - rewrite Rltb_f by lra. cbn [andb]. replace x with 0 by lra. apply (betadist_inf_left betaln a b 1 lnB); auto; lra. }
  assert (N : ntrapz (map d (rlinspace 0 1 800)) (map Fin (rlinspace 0 1 800)) = PInf).
  { pose proof (rlinspace_increasing 0 1 800 ltac:(lra)) as I. assert (F : Forall nonneg_or_inf (map d (rlinspace 0 1 800))).
    { apply Forall_forall. intros v Hv. apply in_map_iff in Hv as (x & <- & Hx). apply rlinspace_range in Hx; [|lra]. specialize (D x Hx). destruct (Rltb 0 x && Rltb x 1)%bool; [right|left]; auto. }
    assert (Z : d 0 = PInf) by (specialize (D 0 ltac:(lra)); rewrite Rltb_f in D by lra; exact D).
    destruct (lin_head 0 1 ltac:(lra)) as (x1 & xs & E & _). rewrite E in *. cbn [map] in F. change (map d (0 :: x1 :: xs)) with (d 0 :: d x1 :: map d xs). apply trapz_infinite; auto. }
  rewrite N. rewrite map_map. apply map_ext_in. intros x Hx. apply rlinspace_range in Hx; [|lra]. specialize (D x Hx). rewrite nmul_fin, Rmult_1_l.
  destruct (Rltb 0 x && Rltb x 1)%bool; [destruct D as (r & _ & ->); reflexivity|]. rewrite D. cbn [nmul]. unfold sinf. rewrite Rltb_t by lra. reflexivity.
Qed.

Section Peaks.
Variables (mmin mmax zlo zhi : R) (ks : list peak).
Hypothesis NE : ks <> [].
Hypothesis HK : forall k, In k ks -> same_peak_ranges mmin mmax zlo zhi k.
Lemma peak_masses : exists mc qc,
  calculate_powerlaw_peak_mass_ppds (Fin mmin) (Fin mmax) (map (fun k => (Fin (k_alpha k), Fin (k_beta k), Fin (k_mu k), Fin (k_sig k), Fin (k_lam k))) ks) None None = Ok (mc, map Fin (rlinspace mmin mmax 800), qc, map Fin (rlinspace (mmin / mmax) 1 800)) /\
  length mc = length ks /\ length qc = length ks /\
  forall i k, nth_error ks i = Some k -> mass_rate_curves mmin mmax (above_minimum mmin (fun m q => k_mass k m * k_ratio k m q)) 1 (nth i mc []) (nth i qc []).
Proof.
  destruct (some_in ks NE) as (k0 & Hk0). destruct (HK k0 Hk0) as (M & _).
  destruct (plpeak_masses mmin mmax M (map (fun k => (k_alpha k, k_beta k, k_mu k, k_sig k, k_lam k)) ks) None None I I) as (mc & qc & E & K1 & K2 & K3).
  { intros a b mp sig lam H. apply in_map_iff in H as (k & X & Hk). injection X as <- <- <- <- <-. destruct (HK k Hk) as (_ & _ & _ & _ & _ & _ & S & L & _). auto. }
  rewrite map_length in K1, K2. rewrite map_map in E. cbn [given option_map] in E. exists mc, qc. split; [exact E|]. split; auto. split; auto.
  intros i k Hi. destruct (K3 i (k_alpha k) (k_beta k) (k_mu k) (k_sig k) (k_lam k)) as (J & D3 & D4); [apply (map_nth_error (fun k => (k_alpha k, k_beta k, k_mu k, k_sig k, k_lam k))); auto|]. rewrite total_none in D4.
  revert D4. apply mass_curves_ext; auto. intros m q Hm Hq. destruct (D3 m q Hm Hq) as [X Y]. unfold above_minimum.
  destruct (HK k (nth_error_In _ _ Hi)) as (_ & _ & T1 & T2 & _ & _ & S & L & _).
  destruct (Rltb mmin (q * m)) eqn:EL.
  - apply Rltb_true in EL. pose proof (X EL) as V. unfold plpeak_primary_ratio_pdf, plpeak_primary_pdf in V. assert (MM : mmin < m) by nra.
    rewrite ndiv_fin in V by lra. rewrite (power_value (k_beta k) (mmin / m) 1 q) in V by (apply ratio_range; [lra|lra|intros [U _]; lra]).
    rewrite (power_value (k_alpha k) mmin mmax m) in V by lra. rewrite bell_value in V by (auto; lra). rewrite !nsub_fin, !nmul_fin, !nadd_fin, !nmul_fin in V. injection V as <-.
    unfold k_mass, k_ratio. rewrite T1, T2. ring.
  - apply Rltb_false in EL. apply Y. lra.
Qed.
Lemma peak_tilts (sg xi : peak -> R) : (forall k, In k ks -> 0 < sg k /\ 0 <= xi k <= 1) -> exists cs,
  calculate_mixture_iso_aligned_spin_tilt (map (fun k => (Fin (sg k), Fin (xi k))) ks) None None = Ok (cs, map Fin (rlinspace (-1) 1 800)) /\ length cs = length ks /\
  forall i k, nth_error ks i = Some k -> rate_curve (rlinspace (-1) 1 800) (k_tilt (xi k) (sg k)) 1 (nth i cs []).
Proof.
  intros HS. destruct (tilt_curves (map (fun k => (sg k, xi k)) ks) None None I I) as (cs & E & L & K).
  { intros s l H. apply in_map_iff in H as (k & X & Hk). injection X as <- <-. auto. }
  rewrite map_map in E. cbn [fst snd given option_map] in E. rewrite map_length in L. exists cs. split; [exact E|]. split; [exact L|].
  intros i k Hi. destruct (K i (sg k) (xi k)) as (g & G1 & G2); [apply (map_nth_error (fun k => (sg k, xi k))); auto|]. rewrite total_none in G2. revert G2. apply rate_curve_ext.
  intros x Hx. apply rlinspace_range in Hx; [|lra]. specialize (G1 x Hx). unfold mixture_isoalign_spin_tilt, ngt in G1. cbn [nlt] in G1. rewrite !Rltb_f in G1 by lra. cbn [orb nwhere] in G1.
  destruct (HS k (nth_error_In _ _ Hi)) as [S1 S2]. rewrite bell_value in G1 by (auto; lra). rewrite nsub_fin, !nmul_fin, ndiv_fin, nadd_fin in G1 by lra. injection G1 as <-. unfold k_tilt. f_equal. field.
Qed.
Lemma peak_mags betaln (a b : peak -> R) : (forall k, In k ks -> exists lnB, betaln (Fin (a k)) (Fin (b k)) = Fin lnB) -> exists cs,
  calculate_beta_spin_mag betaln (Fin 1) (map (fun k => (Fin (a k), Fin (b k))) ks) None None = Ok (cs, map Fin (rlinspace 0 1 800)) /\ length cs = length ks /\
  forall i k, nth_error ks i = Some k -> a k < 1 -> b k < 1 -> lost_curve (nth i cs []).
Proof.
  intros HB. unfold calculate_beta_spin_mag. cbv zeta. unfold PPD_POINTS. rewrite (nlinspace_fin 0 1 800) by apply two_eight.
  set (f := fun (d : num * num) (r q : num) => _). 
  assert (G : forall l, each_draw f (map (fun k => (Fin (a k), Fin (b k))) l) (repeat (Fin 1) (length l)) (repeat (Fin 1) (length l)) = Ok (map (fun k => spin_curve (map (fun x => betadist betaln x (Fin (a k)) (Fin (b k)) (Fin 1) (Fin 0)) (map Fin (rlinspace 0 1 800))) (map Fin (rlinspace 0 1 800)) (Fin 1) (Fin 1)) l)).
  { induction l as [|k l IH]; [reflexivity|]. cbn [length repeat map each_draw]. rewrite IH. reflexivity. }
  unfold all_draws, ones_unless. rewrite map_length. rewrite G. cbn [rbind]. eexists. split; [reflexivity|]. split; [apply map_length|].
  intros i k Hi Ha Hb. destruct (HB k (nth_error_In _ _ Hi)) as (lnB & E). rewrite (nth_some _ _ _ _ (map_nth_error _ _ _ Hi)). apply (beta_lost betaln (a k) (b k) lnB); auto.
Qed.
End Peaks.

Section PeakRates.
Variables (pe : dict arr2) (inj : dict (list num)) (n : nat) (events : list (list binary)) (found : list binary).
Hypothesis HD : data_ok pe inj n events found.
Notation zlo := (z_low events found).
Notation zhi := (z_high events found).
Variables (mmin mmax : R) (ks : list peak) (rates : list R) (dVcdz : num -> num) (zm : zmodel) (betaln : num -> num -> num).
Hypothesis NE : ks <> [].
Hypothesis HK : forall k, In k ks -> same_peak_ranges mmin mmax zlo zhi k.
Hypothesis HM : peak_setup dVcdz pe inj = Ok zm.
Hypothesis HR : length rates = length ks.
Hypothesis HB : forall k, In k ks -> (exists l, betaln (Fin (k_mu1 k * k_v1 k)) (Fin ((1 - k_mu1 k) * k_v1 k)) = Fin l) /\ (exists l, betaln (Fin (k_mu2 k * k_v2 k)) (Fin ((1 - k_mu2 k) * k_v2 k)) = Fin l).
Lemma peak_rates : exists cs,
  calculate_powerlaw_rate_of_z_ppds zm (map (fun k => Fin (k_lamb k)) ks) (map Fin rates) None = Ok (cs, map Fin (rlinspace zlo zhi 1000)) /\ length cs = length ks /\
  forall i k, nth_error ks i = Some k -> rate_of zlo zhi (k_vol k) (k_z k) (nth i rates 0) (fun z => Rpower (1 + z) (k_lamb k)) (nth i cs []).
Proof.
  destruct (redshift_columns _ _ _ _ _ HD) as (p0 & zs & i0 & is & (t & E1 & E2 & E3) & ZL & ZH & PP & PI).
  destruct (some_in ks NE) as (k0 & Hk0). destruct (HK k0 Hk0) as (_ & Z & _).
  pose proof HM as HM'. unfold peak_setup in HM'. rewrite E1, E3 in HM'. cbn [rbind] in HM'. unfold flat in HM'. rewrite E2 in HM'. cbn [map] in HM'. injection HM' as <-.
  rewrite ZL, ZH in *.
  destruct (rate_of_z dVcdz p0 zs i0 is (map k_lamb ks) rates None) as (cs & EC & L & K).
  { apply Forall_forall. intros z Hz. apply PP in Hz. lra. } { apply Forall_forall. intros z Hz. apply PI in Hz. lra. } { lra. } { rewrite map_length. auto. } { exact I. }
  rewrite map_map in EC. cbn [given option_map] in EC. rewrite map_length in L. exists cs. split; [exact EC|]. split; [exact L|].
  intros i k Hi. specialize (K i (k_lamb k) (map_nth_error _ _ _ Hi)). unfold total_rate in K. cbn [per_draw] in K. unfold rate_of. cbv zeta. split.
  - rewrite K. apply map_ext_in. intros z Hz. apply (f_equal Fin). ring.
  - intros z Hz. destruct (HK k (nth_error_In _ _ Hi)) as (_ & _ & _ & _ & U3 & U4 & _). unfold k_z. rewrite U3, U4. pose proof Hz as Hz'. apply rlinspace_range in Hz'; [|lra]. rewrite Rleb_t by lra.
    assert (X : forall y, In y (rlinspace (grid_lo p0 zs i0 is) (grid_hi p0 zs i0 is) 1000) -> k_vol k y * Rpower (1 + y) (k_lamb k - 1) = 1 * (k_vol k y * Rpower (1 + y) (k_lamb k) / (1 + y))).
    { intros y Hy. apply rlinspace_range in Hy; [|lra]. unfold Rminus. rewrite Rpower_plus, Rpower_Ropp, Rpower_1 by lra. field. lra. }
    apply (scaled_shift _ _ _ 1); auto.
Qed.
Lemma peak_exports posterior : peak_posterior posterior ks rates ->
  (exists vars, peak_export betaln posterior (Fin mmin) (Fin mmax) zm (length ks) = Ok (vars, coords_of (export_grid mmin mmax zlo zhi) (length ks)) /\
  forall i k, nth_error ks i = Some k -> exists r1 r2 t1 t2 rm rq rz,
    exported vars "a1" i r1 /\ exported vars "a2" i r2 /\ exported vars "cos_tilt1" i t1 /\ exported vars "cos_tilt2" i t2 /\ exported vars "mass_1" i rm /\ exported vars "mass_ratio" i rq /\ exported vars "redshift" i rz /\
    rate_curve (rlinspace (-1) 1 800) (k_tilt (k_x1 k) (k_s1 k)) 1 t1 /\ rate_curve (rlinspace (-1) 1 800) (k_tilt (k_x2 k) (k_s2 k)) 1 t2 /\
    mass_rate_curves mmin mmax (above_minimum mmin (fun m q => k_mass k m * k_ratio k m q)) 1 rm rq /\
    rate_of zlo zhi (k_vol k) (k_z k) (nth i rates 0) (fun z => Rpower (1 + z) (k_lamb k)) rz /\
    (k_v1 k <= 1 -> lost_curve r1) /\ (k_v2 k <= 1 -> lost_curve r2)) /\
  forall s, s <> length ks -> peak_export betaln posterior (Fin mmin) (Fin mmax) zm s = Err ValueError.
Proof.
  intros (P1 & P2 & P3 & P4 & P5 & P6 & P7 & P8 & P9 & P10 & P11 & P12 & P13 & P14 & P15 & _).
  destruct (peak_masses mmin mmax zlo zhi ks NE HK) as (mc & qc & EM & LM & LQ & KM).
  destruct (peak_mags ks betaln (fun k => k_mu1 k * k_v1 k) (fun k => (1 - k_mu1 k) * k_v1 k)) as (c1 & EA1 & LA1 & KA1); [intros k Hk; destruct (HB k Hk); eauto|].
  destruct (peak_mags ks betaln (fun k => k_mu2 k * k_v2 k) (fun k => (1 - k_mu2 k) * k_v2 k)) as (c2 & EA2 & LA2 & KA2); [intros k Hk; destruct (HB k Hk); eauto|].
  destruct (peak_tilts ks k_s1 k_x1) as (d1 & ET1 & LT1 & KT1); [intros k Hk; destruct (HK k Hk) as (_ & _ & _ & _ & _ & _ & _ & _ & _ & _ & _ & _ & U1 & _ & U2 & _); auto|].
  destruct (peak_tilts ks k_s2 k_x2) as (d2 & ET2 & LT2 & KT2); [intros k Hk; destruct (HK k Hk) as (_ & _ & _ & _ & _ & _ & _ & _ & _ & _ & _ & _ & _ & U1 & _ & U2); auto|].
  destruct peak_rates as (cs & EZ & LZ & KZ).
  destruct (finish c1 d1 c2 d2 mc qc cs mmin mmax zlo zhi (length ks) LA1 LT1 LA2 LT2 LM LQ LZ) as ((vars & EV & KV) & EW).
  assert (EX : forall s, peak_export betaln posterior (Fin mmin) (Fin mmax) zm s = snd (pdf_dict_to_xarray (pdf_dict c1 d1 c2 d2 mc qc cs (map Fin (rlinspace 0 1 800)) (map Fin (rlinspace (-1) 1 800)) (map Fin (rlinspace mmin mmax 800)) (map Fin (rlinspace (mmin / mmax) 1 800)) (map Fin (rlinspace zlo zhi 1000))) (export_grid mmin mmax zlo zhi) s None)).
  { intros s. unfold peak_export, numbers. rewrite P1, P2, P3, P4, P5, P6, P7, P8, P9, P10, P11, P12, P13, P14, P15. cbn [rbind]. rewrite !combine_maps. rewrite EM. cbn [rbind]. rewrite EA1. cbn [rbind]. rewrite EA2. cbn [rbind]. rewrite ET1. cbn [rbind]. rewrite ET2. cbn [rbind]. rewrite EZ. cbn [rbind]. reflexivity. }
  split; [|intros s Hs; rewrite EX; apply EW; auto]. exists vars. rewrite EX. split; [exact EV|].
  intros i k Hi. assert (IL : (i < length ks)%nat) by (apply nth_error_Some; congruence).
  destruct (KV i IL) as (V1 & V2 & V3 & V4 & V5 & V6 & V7). exists (nth i c1 []), (nth i c2 []), (nth i d1 []), (nth i d2 []), (nth i mc []), (nth i qc []), (nth i cs []).
  destruct (HK k (nth_error_In _ _ Hi)) as (_ & _ & _ & _ & _ & _ & _ & _ & U1 & W1 & U2 & W2 & _).
  do 7 (split; [assumption|]). split; [apply KT1; auto|]. split; [apply KT2; auto|]. split; [apply KM; auto|]. split; [exact (KZ i k Hi)|]. split; intros HV; [apply (KA1 i k Hi)|apply (KA2 i k Hi)]; nra.
Qed.
End PeakRates.
Lemma peak_setup_exists dVcdz pe inj n events found : data_ok pe inj n events found -> exists zm, peak_setup dVcdz pe inj = Ok zm.
Proof. intros (HT & Hn & HE & HF & _). eexists. apply (peak_setup_value dVcdz pe inj n events found); auto. Qed.
Lemma betaln_shapes betaln mmin mmax zlo zhi ks : (forall a b, 0 < a -> 0 < b -> exists l, betaln (Fin a) (Fin b) = Fin l) -> (forall k, In k ks -> same_peak_ranges mmin mmax zlo zhi k) ->
  forall k, In k ks -> (exists l, betaln (Fin (k_mu1 k * k_v1 k)) (Fin ((1 - k_mu1 k) * k_v1 k)) = Fin l) /\ (exists l, betaln (Fin (k_mu2 k * k_v2 k)) (Fin ((1 - k_mu2 k) * k_v2 k)) = Fin l).
Proof. intros HB HK k Hk. destruct (HK k Hk) as (_ & _ & _ & _ & _ & _ & _ & _ & U1 & W1 & U2 & W2 & _). split; apply HB; nra. Qed.
Lemma peak_curves pe inj n events found mmin mmax ks rates dVcdz betaln posterior :
  data_ok pe inj n events found -> ks <> [] -> (forall k, In k ks -> same_peak_ranges mmin mmax (z_low events found) (z_high events found) k) ->
  (forall a b, 0 < a -> 0 < b -> exists l, betaln (Fin a) (Fin b) = Fin l) -> peak_posterior posterior ks rates ->
  let zlo := z_low events found in let zhi := z_high events found in
  exists zm vars, peak_setup dVcdz pe inj = Ok zm /\
  peak_export betaln posterior (Fin mmin) (Fin mmax) zm (length ks) = Ok (vars, coords_of (export_grid mmin mmax zlo zhi) (length ks)) /\
  forall i k, nth_error ks i = Some k -> exists t1 t2 rm rq rz,
    exported vars "cos_tilt1" i t1 /\ exported vars "cos_tilt2" i t2 /\ exported vars "mass_1" i rm /\ exported vars "mass_ratio" i rq /\ exported vars "redshift" i rz /\
    rate_curve (rlinspace (-1) 1 800) (k_tilt (k_x1 k) (k_s1 k)) 1 t1 /\ rate_curve (rlinspace (-1) 1 800) (k_tilt (k_x2 k) (k_s2 k)) 1 t2 /\
    mass_rate_curves mmin mmax (above_minimum mmin (fun m q => k_mass k m * k_ratio k m q)) 1 rm rq /\
    rate_of zlo zhi (k_vol k) (k_z k) (nth i rates 0) (fun z => Rpower (1 + z) (k_lamb k)) rz.
Proof.
  intros HD NE HK HB HO zlo zhi. destruct (peak_setup_exists dVcdz _ _ _ _ _ HD) as (zm & E). assert (LR : length rates = length ks) by apply HO.
  destruct (peak_exports pe inj n events found HD mmin mmax ks rates dVcdz zm betaln NE HK E LR (betaln_shapes _ _ _ _ _ _ HB HK) posterior HO) as ((vars & K1 & K2) & _). exists zm, vars. split; auto. split; auto.
  intros i k Hi. destruct (K2 i k Hi) as (r1 & r2 & t1 & t2 & rm & rq & rz & _ & _ & X3 & X4 & X5 & X6 & X7 & Y1 & Y2 & Y3 & Y4 & _). exists t1, t2, rm, rq, rz. do 8 (split; [assumption|]). assumption.
Qed.
Lemma peak_lost pe inj n events found mmin mmax ks rates dVcdz betaln posterior :
  data_ok pe inj n events found -> ks <> [] -> (forall k, In k ks -> same_peak_ranges mmin mmax (z_low events found) (z_high events found) k) ->
  (forall a b, 0 < a -> 0 < b -> exists l, betaln (Fin a) (Fin b) = Fin l) -> peak_posterior posterior ks rates ->
  exists zm vars coords, peak_setup dVcdz pe inj = Ok zm /\ peak_export betaln posterior (Fin mmin) (Fin mmax) zm (length ks) = Ok (vars, coords) /\
  forall i k, nth_error ks i = Some k -> k_v1 k <= 1 /\ k_v2 k <= 1 -> exists r1 r2, exported vars "a1" i r1 /\ exported vars "a2" i r2 /\ lost_curve r1 /\ lost_curve r2.
Proof.
  intros HD NE HK HB HO. destruct (peak_setup_exists dVcdz _ _ _ _ _ HD) as (zm & E). assert (LR : length rates = length ks) by apply HO.
  destruct (peak_exports pe inj n events found HD mmin mmax ks rates dVcdz zm betaln NE HK E LR (betaln_shapes _ _ _ _ _ _ HB HK) posterior HO) as ((vars & K1 & K2) & _). exists zm, vars. eexists. split; auto. split; [exact K1|].
  intros i k Hi (V1 & V2). destruct (K2 i k Hi) as (r1 & r2 & t1 & t2 & rm & rq & rz & X1 & X2 & _ & _ & _ & _ & _ & _ & _ & _ & _ & L1 & L2). exists r1, r2. auto.
Qed.
Lemma peak_chains pe inj n events found mmin mmax ks rates dVcdz zm betaln posterior samples :
  data_ok pe inj n events found -> ks <> [] -> (forall k, In k ks -> same_peak_ranges mmin mmax (z_low events found) (z_high events found) k) -> peak_setup dVcdz pe inj = Ok zm ->
  (forall a b, 0 < a -> 0 < b -> exists l, betaln (Fin a) (Fin b) = Fin l) -> peak_posterior posterior ks rates ->
  samples <> length ks -> peak_export betaln posterior (Fin mmin) (Fin mmax) zm samples = Err ValueError.
Proof.
  intros HD NE HK E HB HO HS. assert (LR : length rates = length ks) by apply HO.
  destruct (peak_exports pe inj n events found HD mmin mmax ks rates dVcdz zm betaln NE HK E LR (betaln_shapes _ _ _ _ _ _ HB HK) posterior HO) as (_ & K). auto.
Qed.
