(** The curves exported after a fit are those of the fitted populations. *)
From Coq Require Import Lra Lia.
From Verif Require Import PPostprocess PPostprocess2 PPostprocess3 PPostprocess4 PPostprocess5 PSplineValue PBSplineMake PSplineEval PFit PPeak PUtils ArrFacts NumFacts.
From Verif Require Import SpecMain Spec.
Open Scope R_scope.
Open Scope string_scope.
Open Scope list_scope.

Lemma combine_maps {A B C} (f : A -> B) (g : A -> C) l : combine (map f l) (map g l) = map (fun x => (f x, g x)) l.
Proof. induction l as [|x l IH]; cbn; [|rewrite IH]; reflexivity. Qed.
Lemma rate_curve_ext xs g g' t c : (forall x, In x xs -> g x = g' x) -> rate_curve xs g t c -> rate_curve xs g' t c.
Proof.
  intros H (k & E1 & E2 & E3). exists k. assert (M : map g xs = map g' xs) by (apply map_ext_in; auto). assert (K : map (fun x => k * g x) xs = map (fun x => k * g' x) xs) by (apply map_ext_in; intros x Hx; rewrite H; auto).
  rewrite <- M, <- K. split; auto. rewrite E1. apply map_ext_in. intros x Hx. rewrite H; auto.
Qed.
Lemma mass_curves_ext mmin mmax J J' t c d : 0 < mmin < mmax -> (forall m q, mmin <= m <= mmax -> mmin / mmax <= q <= 1 -> J m q = J' m q) -> mass_rate_curves mmin mmax J t c d -> mass_rate_curves mmin mmax J' t c d.
Proof.
  intros HM H [A B]. pose proof (q_range mmin mmax HM) as Q.
  assert (MS : forall m, In m (rlinspace mmin mmax 800) -> mmin <= m <= mmax) by (intros m Hm; apply rlinspace_range in Hm; lra).
  assert (QS : forall q, In q (rlinspace (mmin / mmax) 1 800) -> mmin / mmax <= q <= 1) by (intros q Hq; apply rlinspace_range in Hq; lra).
  split; eapply rate_curve_ext; try eassumption; intros x Hx; unfold marginal_m, marginal_q; f_equal; apply map_ext_in; intros y Hy; apply H; auto.
Qed.
Lemma total_none i : total_rate None None i = 1.
Proof. unfold total_rate. cbn. ring. Qed.
Lemma each_draw_len {D O} (f : D -> num -> num -> result O) ds rs fs os : each_draw f ds rs fs = Ok os -> length os = length ds.
Proof.
  revert rs fs os. induction ds as [|d ds IH]; intros [|r rs] [|q fs] os; cbn [each_draw]; try discriminate; try (intros E; injection E as <-; reflexivity).
  destruct (f d r q) as [o|]; cbn [rbind]; [|discriminate]. destruct (each_draw f ds rs fs) as [l|] eqn:E; cbn [rbind]; [|discriminate]. intros X; injection X as <-. cbn [length]. f_equal. eauto.
Qed.
Lemma independent_len n1 n2 m1 m2 ds rate frac a b g c d h : calculate_bspline_spin_ppds_independent n1 n2 m1 m2 ds rate frac = Ok (a, b, g, c, d, h) ->
  length a = length ds /\ length b = length ds /\ length c = length ds /\ length d = length ds.
Proof.
  unfold calculate_bspline_spin_ppds_independent. cbv zeta. destruct (independent_spin_magnitudes _ _ _ _ _ _ _ _) as [mag|]; cbn [rbind]; [|discriminate]. destruct (independent_spin_tilts _ _ _ _ _ _ _ _) as [tilt|]; cbn [rbind]; [|discriminate].
  destruct (all_draws _ _ _ _) as [os|] eqn:E; cbn [rbind]; [|discriminate]. intros X. injection X as <- <- <- <- <- <-. apply each_draw_len in E. rewrite !map_length. auto.
Qed.
Lemma spline_value dVcdz n p0 pe i0 inj m c z : let a := grid_lo p0 pe i0 inj in let b := grid_hi p0 pe i0 inj in (4 <= n)%nat -> 0 < a < b -> 1 / 10 ^ 6 <= (ln b - ln a) / INR (n - 3) ->
  make_plz_model dVcdz KLogX n (Fin p0) (map Fin pe) (Fin i0) (map Fin inj) = Ok m -> length c = n -> a <= z <= b ->
  eval (y_sp m) (Fin z :: nil) (map Fin c) = Ok (Fin (curve (ln a) (ln b) n 4 c (ln z)) :: nil).
Proof.
  intros a b Hn Hab HW HM HC HZ. assert (VR : valid_range KLogX a b) by (split; [lra|intros; lra]).
  unfold make_plz_model in HM. rewrite init_fin in HM. cbn [zm_min zm_max zm_zs] in HM. fold a b in HM.
  destruct (make_default KLogX n 4 a b false ltac:(lia) VR) as (sp & ES & K1 & K2 & K3 & K4 & K5 & K6 & K7). rewrite ES in HM. cbn [rbind] in HM. apply Ok_inj in HM. subst m. cbn [y_sp].
  unfold eval. change (Fin z :: nil) with (map Fin (z :: nil)). rewrite (PSplinePert.lin_project sp KLogX (uniform (coord KLogX a) (coord KLogX b) n 4) 4 n (coord KLogX a) (coord KLogX b)); auto; try lia.
  - cbn [map]. do 3 f_equal. change (ln a) with (coord KLogX a). change (ln b) with (coord KLogX b). change (ln z) with (coord KLogX z). apply lin_curve; auto; try lia; [intros; lra|apply ln_increasing; lra|].
    replace (n + 1 - 4)%nat with (n - 3)%nat by lia. exact HW.
  - apply uniform_length.
  - intros _. constructor; [lra|constructor].
Qed.

Lemma some_in {A} (l : list A) : l <> [] -> exists p, In p l.
Proof. destruct l as [|p l]; [congruence|exists p; left; auto]. Qed.
Section Pops.
Variables (mmin mmax zlo zhi : R) (nm nq na nct nz : nat) (pops : list population).
Hypothesis NE : pops <> [].
Hypothesis HP : forall p, In p pops -> same_ranges mmin mmax zlo zhi nm nq na nct nz p.
Lemma pop_masses : exists mc qc,
  calculate_bspline_mass_ppds nm nq (Fin mmin) (Fin mmax) (map (fun p => (map Fin (o_m p), map Fin (o_q p))) pops) None None = Ok (mc, map Fin (rlinspace mmin mmax 800), qc, map Fin (rlinspace (mmin / mmax) 1 800)) /\
  length mc = length pops /\ length qc = length pops /\
  forall i p, nth_error pops i = Some p -> mass_rate_curves mmin mmax (above_minimum mmin (fun m q => mass_pdf p m * ratio_pdf p q)) 1 (nth i mc []) (nth i qc []).
Proof.
  destruct (some_in pops NE) as (p0 & Hp0). destruct (HP p0 Hp0) as ((M & Z & V & (A1 & A2 & A3) & (B1 & B2 & B3) & _) & E1 & E2 & E3 & E4 & L1 & L2 & _). rewrite E1, E2, L1, L2 in *.
  assert (QL : mmin / mmax < 1) by (apply (Rmult_lt_reg_r mmax); [lra|]; unfold Rdiv; rewrite Rmult_assoc, Rinv_l by lra; lra).
  assert (W1 : wide_range KLogXLogY nm 4 mmin mmax) by (unfold wide_range; replace (nm + 1 - 4)%nat with (nm - 3)%nat by lia; exact A3).
  assert (W2 : wide_range KLogY nq 4 (mmin / mmax) 1) by (unfold wide_range; replace (nq + 1 - 4)%nat with (nq - 3)%nat by lia; exact B3).
  destruct (spline_masses mmin mmax M nm nq (map (fun p => (o_m p, o_q p)) pops) None None A1 B1 W1 W2 I I) as (mc & qc & E & K1 & K2 & K3).
  { intros m q Hmq. apply in_map_iff in Hmq as (p & X & Hp). injection X as <- <-. destruct (HP p Hp) as ((_ & _ & _ & (_ & X2 & _) & (_ & Y2 & _) & _) & _ & _ & _ & _ & X3 & Y3 & _). split; split; auto. }
  rewrite map_length in K1, K2. rewrite map_map in E. cbn [fst snd given option_map] in E. exists mc, qc. split; [exact E|]. split; auto. split; auto.
  intros i p Hi. destruct (K3 i (o_m p) (o_q p)) as (pm & pq & J & D1 & D2 & D3 & D4); [apply (map_nth_error (fun p => (o_m p, o_q p))); auto|]. rewrite total_none in D4.
  revert D4. apply mass_curves_ext; auto. intros m q Hm Hq. destruct (D3 m q Hm Hq) as [X Y]. unfold above_minimum.
  destruct (HP p (nth_error_In _ _ Hi)) as ((_ & _ & _ & (F1 & F2 & F3) & (G1 & G2 & G3) & _) & T1 & T2 & _ & _ & T5 & T6 & _). rewrite T1, T2, T5, T6 in *.
  destruct (Rltb mmin (q * m)) eqn:EL.
  - apply Rltb_true in EL. apply X in EL. injection EL as <-. f_equal.
    + specialize (D1 m Hm). apply density_explicit in D1; auto; [|split; [lra|intros; lra]]. injection D1 as ->. unfold mass_pdf. rewrite T1, T2, T5. reflexivity.
    + specialize (D2 q Hq). apply density_explicit in D2; auto; [|split; [lra|discriminate]]. injection D2 as ->. unfold ratio_pdf. rewrite T1, T2, T6. reflexivity.
  - apply Rltb_false in EL. apply Y. lra.
Qed.
Lemma pop_spins : exists ac1 ac2 tc1 tc2,
  calculate_bspline_spin_ppds_independent na na nct nct (map (fun p => (map Fin (o_a1 p), map Fin (o_t1 p), map Fin (o_a2 p), map Fin (o_t2 p))) pops) None None
    = Ok (ac1, ac2, map Fin (rlinspace 0 1 800), tc1, tc2, map Fin (rlinspace (-1) 1 800)) /\
  length ac1 = length pops /\ length ac2 = length pops /\ length tc1 = length pops /\ length tc2 = length pops /\
  forall i p, nth_error pops i = Some p -> rate_curve (rlinspace 0 1 800) (spin_pdf (o_a1 p)) 1 (nth i ac1 []) /\ rate_curve (rlinspace 0 1 800) (spin_pdf (o_a2 p)) 1 (nth i ac2 []) /\
    rate_curve (rlinspace (-1) 1 800) (cosine_pdf (o_t1 p)) 1 (nth i tc1 []) /\ rate_curve (rlinspace (-1) 1 800) (cosine_pdf (o_t2 p)) 1 (nth i tc2 []).
Proof.
  assert (W : forall k, (4 <= k)%nat -> 1 / 10 ^ 6 <= 1 / INR (k - 3) -> wide_range KLogY k 4 0 1) by (intros k Hk HW; unfold wide_range, coord; cbn [logx]; replace (k + 1 - 4)%nat with (k - 3)%nat by lia; rewrite Rminus_0_r; auto).
  assert (W' : forall k, (4 <= k)%nat -> 1 / 10 ^ 6 <= 2 / INR (k - 3) -> wide_range KLogY k 4 (-1) 1) by (intros k Hk HW; unfold wide_range, coord; cbn [logx]; replace (k + 1 - 4)%nat with (k - 3)%nat by lia; replace (1 - -1) with 2 by ring; auto).
  assert (HQ : forall p, In p pops -> (forall cs, cs = o_a1 p \/ cs = o_a2 p -> log_coefs na cs) /\ (forall cs, cs = o_t1 p \/ cs = o_t2 p -> log_coefs nct cs) /\
     (4 <= na)%nat /\ (4 <= nct)%nat /\ 1 / 10 ^ 6 <= 1 / INR (na - 3) /\ 1 / 10 ^ 6 <= 2 / INR (nct - 3)).
  { intros p Hp. destruct (HP p Hp) as ((_ & _ & _ & _ & _ & (C1 & C2 & C3) & (E1 & E2 & E3) & (F1 & F2 & F3) & (G1 & G2 & G3) & LA & LT & _) & _ & _ & _ & _ & _ & _ & T5 & T6 & _).
    rewrite LA, T5 in *. rewrite LT, T6 in *. unfold log_coefs. split; [intros cs [-> | ->]; split; auto; congruence|]. split; [intros cs [-> | ->]; split; auto; congruence|auto]. }
  destruct (some_in pops NE) as (p0 & Hp0). destruct (HQ p0 Hp0) as (_ & _ & A1 & B1 & A3 & B3).
  destruct (spins_independent na na nct nct (map (fun p => (o_a1 p, o_t1 p, o_a2 p, o_t2 p)) pops) None None A1 A1 B1 B1 (W na A1 A3) (W na A1 A3) (W' nct B1 B3) (W' nct B1 B3) I I) as (ac1 & ac2 & tc1 & tc2 & E & _ & _ & _ & _ & K).
  { intros a1 t1 a2 t2 H. apply in_map_iff in H as (p & X & Hp). injection X as <- <- <- <-. destruct (HQ p Hp) as (X & Y & _). refine (conj _ (conj _ (conj _ _))); auto. }
  rewrite map_map in E. cbn [given option_map] in E. exists ac1, ac2, tc1, tc2. split; [exact E|]. pose proof (independent_len _ _ _ _ _ _ _ _ _ _ _ _ _ E) as L. rewrite map_length in L. destruct L as (L1 & L2 & L3 & L4).
  do 4 (split; [assumption|]). intros i p Hi. destruct (K i (o_a1 p) (o_t1 p) (o_a2 p) (o_t2 p)) as (g1 & g2 & k1 & k2 & D1 & D2 & R1 & R2 & R3 & R4); [apply (map_nth_error (fun p => (o_a1 p, o_t1 p, o_a2 p, o_t2 p))); auto|].
  rewrite total_none in *. destruct (HQ p (nth_error_In _ _ Hi)) as (HA & HT & _).
  assert (DA : forall cs g x, log_coefs na cs -> density_at KLogY (Fin 0, Fin 1) no_opts na (map Fin cs) (Fin x) (Fin (g x)) -> g x = spin_pdf cs x).
  { intros cs g x [LC FC] D. apply density_explicit in D; auto; [|split; [lra|discriminate]|unfold coord; cbn [logx]; rewrite Rminus_0_r; auto]. injection D as ->. unfold spin_pdf. rewrite LC. reflexivity. }
  assert (DT : forall cs g x, log_coefs nct cs -> density_at KLogY (Fin (-1), Fin 1) no_opts nct (map Fin cs) (Fin x) (Fin (g x)) -> g x = cosine_pdf cs x).
  { intros cs g x [LC FC] D. apply density_explicit in D; auto; [|split; [lra|discriminate]|unfold coord; cbn [logx]; replace (1 - -1) with 2 by ring; auto]. injection D as ->. unfold cosine_pdf. rewrite LC. reflexivity. }
  assert (RA : forall x, In x (rlinspace 0 1 800) -> 0 <= x <= 1) by (intros x Hx; apply rlinspace_range in Hx; lra). assert (RC : forall x, In x (rlinspace (-1) 1 800) -> -1 <= x <= 1) by (intros x Hx; apply rlinspace_range in Hx; lra).
  split; [|split; [|split]]; eapply rate_curve_ext; try eassumption; intros x Hx; [apply (DA _ g1)|apply (DA _ g2)|apply (DT _ k1)|apply (DT _ k2)]; auto; first [apply D1|apply D2]; auto.
Qed.
End Pops.

Lemma redshift_columns pe inj n events found : data_ok pe inj n events found -> exists p0 zs i0 is, redshifts_are pe inj p0 zs i0 is /\
  z_low events found = grid_lo p0 zs i0 is /\ z_high events found = grid_hi p0 zs i0 is /\ (forall z, In z (p0 :: zs) -> 0 < z) /\ (forall z, In z (i0 :: is) -> 0 < z).
Proof.
  intros ((HN & HT) & Hn & HE & HF & HP). set (zp := map b_z (concat events)). set (zi := map b_z found).
  assert (NP : exists p0 zs, zp = p0 :: zs).
  { destruct events as [|e es]; [congruence|]. destruct e as [|b e]; [inversion_clear HN as [|? ? L _]; cbn in L; lia|]. unfold zp. cbn. eauto. }
  assert (NI : exists i0 is, zi = i0 :: is) by (destruct found as [|b l]; [congruence|]; unfold zi; cbn; eauto).
  destruct NP as (p0 & zs & EP). destruct NI as (i0 & is & EI). exists p0, zs, i0, is.
  destruct (HT "redshift" b_z ltac:(cbn; tauto)) as [H1 H2]. split; [|split; [|split; [|split]]].
  - eexists. split; [exact H1|]. cbn [a_rows]. split.
    + rewrite <- EP. unfold zp. rewrite map_map. rewrite concat_map. reflexivity.
    + rewrite H2, <- EI. unfold zi. rewrite map_map. reflexivity.
  - unfold z_low; fold zp zi; rewrite EP, EI; reflexivity.
  - unfold z_high; fold zp zi; rewrite EP, EI; reflexivity.
  - intros z Hz; rewrite <- EP in Hz; apply in_map_iff in Hz as (b & <- & Hb); apply HP, in_or_app; auto.
  - intros z Hz; rewrite <- EI in Hz; apply in_map_iff in Hz as (b & <- & Hb); apply HP, in_or_app; auto.
Qed.
Definition bspline_evolution (zlo zhi : R) (nz : nat) (p : population) (z : R) : R := Rpower (1 + z) (o_lamb p) * exp (curve (ln zlo) (ln zhi) nz 4 (o_z p) (ln z)).

(** the common end of both scripts *)
Lemma wrong_count pdfs grid n key a : is_dict pdfs -> is_dict grid -> ~ In "draw" (keys grid) -> In (key, OnePdf a) pdfs -> length (a_rows a) <> n -> snd (pdf_dict_to_xarray pdfs grid n None) = Err ValueError.
Proof.
  intros Dp Dg N H HL. set (vars := map (fun kv : string * pdf_val => ((fst kv ++ "_pdfs")%string, (["draw"; fst kv], whole (snd kv)))) pdfs).
  assert (NDv : NoDup (keys vars)).
  { apply (map_keys_nodup (fun k => (k ++ "_pdfs")%string) (fun kv => (["draw"; fst kv], whole (snd kv)))); [|exact Dp]. intros x y. apply sapp_inv_tail. }
  unfold pdf_dict_to_xarray. fold (coords_of grid n). fold vars. rewrite (union_dict [] vars) by exact NDv. cbn [app snd]. unfold dataset. destruct (forallb _ vars); [|reflexivity]. cbn [andb].
  destruct (sizes_agree _) eqn:E; [|reflexivity]. exfalso. apply HL. apply (proj1 (sizes_agree_spec _) E "draw"); apply in_or_app.
  - left. apply in_flat_map. exists ((key ++ "_pdfs")%string, (["draw"; key], Some a)). split; [|left; reflexivity]. unfold vars. apply in_map_iff. exists (key, OnePdf a). auto.
  - right. unfold coords_of. rewrite union_dict.
    + rewrite map_app. apply in_or_app. right. left. cbn [fst snd]. rewrite map_length, seq_length. reflexivity.
    + apply PAnalysisNames.NoDup_app_; [exact Dg | repeat constructor; easy |]. intros x Hx [<-|[]]. contradiction.
Qed.
Lemma finish (a1 t1 a2 t2 m1 q z : curves) mmin mmax zlo zhi N : length a1 = N -> length t1 = N -> length a2 = N -> length t2 = N -> length m1 = N -> length q = N -> length z = N ->
  let g := export_grid mmin mmax zlo zhi in
  let D := pdf_dict a1 t1 a2 t2 m1 q z (map Fin (rlinspace 0 1 800)) (map Fin (rlinspace (-1) 1 800)) (map Fin (rlinspace mmin mmax 800)) (map Fin (rlinspace (mmin / mmax) 1 800)) (map Fin (rlinspace zlo zhi 1000)) in
  (exists vars, snd (pdf_dict_to_xarray D g N None) = Ok (vars, coords_of g N) /\ forall i, (i < N)%nat ->
    exported vars "a1" i (nth i a1 []) /\ exported vars "a2" i (nth i a2 []) /\ exported vars "cos_tilt1" i (nth i t1 []) /\ exported vars "cos_tilt2" i (nth i t2 []) /\
    exported vars "mass_1" i (nth i m1 []) /\ exported vars "mass_ratio" i (nth i q []) /\ exported vars "redshift" i (nth i z [])) /\
  forall s, s <> N -> snd (pdf_dict_to_xarray D g s None) = Err ValueError.
Proof.
  intros L1 L2 L3 L4 L5 L6 L7 g D. unfold D, pdf_dict. rewrite !map_length, !rlinspace_length. match goal with |- context [pdf_dict_to_xarray ?d _ _ _] => set (D' := d) end. clear D.
  assert (LG : forall a b m, length (map Fin (rlinspace a b m)) = m) by (intros; rewrite map_length; apply rlinspace_length).
  assert (ISD : is_dict D') by (unfold is_dict, D', keys; cbn [map fst]; repeat constructor; cbn [In]; intuition discriminate).
  assert (ISG : is_dict g) by (unfold is_dict, g, export_grid, keys; cbn [map fst]; repeat constructor; cbn [In]; intuition discriminate).
  assert (ND : ~ In "draw" (keys g)) by (unfold g, export_grid, keys; cbn [map fst In]; intuition discriminate).
  split.
  - destruct (pdf_export_single D' g N ISD ISG ND) as (vars & EV & _ & KV).
    { intros key v H. unfold D' in H. repeat (destruct H as [H|H]; [injection H as <- <-; eexists; split; [reflexivity|]; split; [discriminate|]; split; [assumption|]; eexists; split; [reflexivity|apply LG]|]). destruct H. }
    exists vars. rewrite EV. split; [reflexivity|]. intros i IL.
    assert (X : forall key w rows, In (key, OnePdf (Arr2 w rows)) D' -> length rows = N -> exported vars key i (nth i rows [])).
    { intros key w rows H HL. exists w, rows. split; [apply KV; exact H|]. apply nth_error_nth'. lia. }
    refine (conj _ (conj _ (conj _ (conj _ (conj _ (conj _ _)))))); (eapply X; [unfold D'|assumption]).
    + left; reflexivity.
    + do 2 right; left; reflexivity.
    + do 1 right; left; reflexivity.
    + do 3 right; left; reflexivity.
    + do 4 right; left; reflexivity.
    + do 5 right; left; reflexivity.
    + do 6 right; left; reflexivity.
  - intros s Hs. eapply wrong_count; auto; [left; reflexivity|]. cbn [a_rows]. congruence.
Qed.

Section Rates.
Variables (pe : dict arr2) (inj : dict (list num)) (n : nat) (events : list (list binary)) (found : list binary).
Hypothesis HD : data_ok pe inj n events found.
Notation zlo := (z_low events found).
Notation zhi := (z_high events found).
Variables (mmin mmax : R) (nm nq na nct nz : nat) (pops : list population) (rates : list R) (dVcdz : num -> num) (zm : plz_model).
Hypothesis NE : pops <> [].
Hypothesis HP : forall p, In p pops -> same_ranges mmin mmax zlo zhi nm nq na nct nz p.
Hypothesis HM : setup_powerlaw_spline_redshift_model dVcdz pe inj (AInt (Z.of_nat nz)) = Ok zm.
Hypothesis HR : length rates = length pops.
Lemma pop_rates : exists cs,
  calculate_powerlaw_spline_rate_of_z_ppds zm (map (fun p => (Fin (o_lamb p), map Fin (tl (o_z p)))) pops) (map Fin rates) None = Ok (cs, map Fin (rlinspace zlo zhi 1000)) /\ length cs = length pops /\
  forall i p, nth_error pops i = Some p -> rate_of zlo zhi (o_vol p) (z_pdf p) (nth i rates 0) (bspline_evolution zlo zhi nz p) (nth i cs []).
Proof.
  destruct (redshift_columns _ _ _ _ _ HD) as (p0 & zs & i0 & is & (t & E1 & E2 & E3) & ZL & ZH & PP & PI).
  assert (HZ : forall p, In p pops -> 0 < zlo < zhi /\ (4 <= nz)%nat /\ 1 / 10 ^ 6 <= (ln zhi - ln zlo) / INR (nz - 3) /\ length (o_z p) = nz /\ o_z p = 0 :: tl (o_z p)).
  { intros p Hp. destruct (HP p Hp) as ((_ & Z & _ & _ & _ & _ & _ & _ & _ & _ & _ & Z1 & Z2) & _ & _ & T3 & T4 & _ & _ & _ & _ & T9 & T10). rewrite T3, T4, T9 in *. repeat split; auto; try lra.
    destruct (o_z p) as [|z0 l]; [cbn in T9; lia|]. cbn in T10. subst. reflexivity. }
  destruct (some_in pops NE) as (q0 & Hq0). destruct (HZ q0 Hq0) as (Z & NZ & WZ & _ & _).
  pose proof HM as HM'. unfold setup_powerlaw_spline_redshift_model in HM'. rewrite E1, E3 in HM'. cbn [rbind] in HM'. unfold flat in HM'. rewrite E2 in HM'. cbn [map] in HM'. rewrite PSetup.count_ok in HM'. cbn [rbind] in HM'.
  rewrite ZL, ZH in *.
  destruct (spline_rate_of_z dVcdz KLogX nz p0 zs i0 is zm (map (fun p => (o_lamb p, tl (o_z p))) pops) rates None (or_intror eq_refl) NZ ltac:(lra) ltac:(intros; lra) HM') as (cs & EC & L & K); auto.
  { rewrite map_length. auto. }
  { exact I. }
  { intros la c H. apply in_map_iff in H as (p & X & Hp). injection X as <- <-. destruct (HZ p Hp) as (_ & _ & _ & L & E). rewrite E in L. cbn [length] in L. lia. }
  rewrite map_map in EC. cbn [fst snd given option_map] in EC. rewrite map_length in L. exists cs. split; [exact EC|]. split; [exact L|].
  intros i p Hi. destruct (K i (o_lamb p) (tl (o_z p))) as (S & K1 & _ & K3); [apply (map_nth_error (fun p => (o_lamb p, tl (o_z p)))); auto|].
  destruct (HZ p (nth_error_In _ _ Hi)) as (_ & _ & _ & LZ & EZ). rewrite <- EZ in K1.
  assert (RZ : forall z, In z (rlinspace (grid_lo p0 zs i0 is) (grid_hi p0 zs i0 is) 1000) -> grid_lo p0 zs i0 is <= z <= grid_hi p0 zs i0 is) by (intros z Hz; apply rlinspace_range in Hz; lra).
  unfold rate_of. cbv zeta. split.
  - rewrite K3. apply map_ext_in. intros z Hz. apply (f_equal Fin). unfold total_rate, bspline_evolution. cbn [per_draw]. specialize (K1 z Hz).
    rewrite (spline_value dVcdz nz p0 zs i0 is zm (o_z p) z NZ Z WZ HM' LZ (RZ z Hz)) in K1. injection K1 as <-. ring.
  - intros z Hz. destruct (HP p (nth_error_In _ _ Hi)) as (_ & _ & _ & T3 & T4 & _). unfold z_pdf, redshift_density. rewrite T3, T4, LZ, Rleb_t by (apply RZ in Hz; lra).
    assert (X : forall y, In y (rlinspace (grid_lo p0 zs i0 is) (grid_hi p0 zs i0 is) 1000) -> o_vol p y * Rpower (1 + y) (o_lamb p - 1) * exp (curve (ln (grid_lo p0 zs i0 is)) (ln (grid_hi p0 zs i0 is)) nz 4 (o_z p) (ln y)) =
        1 * (o_vol p y * bspline_evolution (grid_lo p0 zs i0 is) (grid_hi p0 zs i0 is) nz p y / (1 + y))).
    { intros y Hy. apply RZ in Hy. unfold bspline_evolution. unfold Rminus. rewrite Rpower_plus, Rpower_Ropp, Rpower_1 by lra. field. lra. }
    apply (scaled_shift _ _ _ 1); auto.
Qed.
Lemma exports posterior : bspline_posterior posterior pops rates ->
  (exists vars, bspline_export posterior nm nq na na nct nct (Fin mmin) (Fin mmax) zm (length pops) = Ok (vars, coords_of (export_grid mmin mmax zlo zhi) (length pops)) /\
  forall i p, nth_error pops i = Some p -> exists r1 r2 t1 t2 rm rq rz,
    exported vars "a1" i r1 /\ exported vars "a2" i r2 /\ exported vars "cos_tilt1" i t1 /\ exported vars "cos_tilt2" i t2 /\ exported vars "mass_1" i rm /\ exported vars "mass_ratio" i rq /\ exported vars "redshift" i rz /\
    rate_curve (rlinspace 0 1 800) (spin_pdf (o_a1 p)) 1 r1 /\ rate_curve (rlinspace 0 1 800) (spin_pdf (o_a2 p)) 1 r2 /\
    rate_curve (rlinspace (-1) 1 800) (cosine_pdf (o_t1 p)) 1 t1 /\ rate_curve (rlinspace (-1) 1 800) (cosine_pdf (o_t2 p)) 1 t2 /\
    mass_rate_curves mmin mmax (above_minimum mmin (fun m q => mass_pdf p m * ratio_pdf p q)) 1 rm rq /\
    rate_of zlo zhi (o_vol p) (z_pdf p) (nth i rates 0) (fun z => Rpower (1 + z) (o_lamb p) * exp (curve (ln zlo) (ln zhi) nz 4 (o_z p) (ln z))) rz) /\
  forall s, s <> length pops -> bspline_export posterior nm nq na na nct nct (Fin mmin) (Fin mmax) zm s = Err ValueError.
Proof.
  intros (P1 & P2 & P3 & P4 & P5 & P6 & P7 & P8 & P9 & _). destruct (pop_masses mmin mmax zlo zhi nm nq na nct nz pops NE HP) as (mc & qc & EM & LM & LQ & KM).
  destruct (pop_spins mmin mmax zlo zhi nm nq na nct nz pops NE HP) as (ac1 & ac2 & tc1 & tc2 & EA & L1 & L2 & L3 & L4 & KA). destruct pop_rates as (cs & EZ & LZ & KZ).
  destruct (finish ac1 tc1 ac2 tc2 mc qc cs mmin mmax zlo zhi (length pops) L1 L3 L2 L4 LM LQ LZ) as ((vars & EV & KV) & EW).
  assert (EX : forall s, bspline_export posterior nm nq na na nct nct (Fin mmin) (Fin mmax) zm s = snd (pdf_dict_to_xarray (pdf_dict ac1 tc1 ac2 tc2 mc qc cs (map Fin (rlinspace 0 1 800)) (map Fin (rlinspace (-1) 1 800)) (map Fin (rlinspace mmin mmax 800)) (map Fin (rlinspace (mmin / mmax) 1 800)) (map Fin (rlinspace zlo zhi 1000))) (export_grid mmin mmax zlo zhi) s None)).
  { intros s. unfold bspline_export, MMain.vectors, numbers. rewrite P1, P2, P3, P4, P5, P6, P7, P8, P9. cbn [rbind]. rewrite !combine_maps. rewrite EM. cbn [rbind]. rewrite EA. cbn [rbind]. rewrite EZ. cbn [rbind]. reflexivity. }
  split; [|intros s Hs; rewrite EX; apply EW; auto]. exists vars. rewrite EX. split; [exact EV|].
  intros i p Hi. destruct (KA i p Hi) as (A1 & A2 & A3 & A4). assert (IL : (i < length pops)%nat) by (apply nth_error_Some; congruence).
  destruct (KV i IL) as (V1 & V2 & V3 & V4 & V5 & V6 & V7). exists (nth i ac1 []), (nth i ac2 []), (nth i tc1 []), (nth i tc2 []), (nth i mc []), (nth i qc []), (nth i cs []).
  do 11 (split; [assumption|]). split; [apply KM; auto|exact (KZ i p Hi)].
Qed.
(** the fitted densities do not vanish at the lower edges, the exported curves do *)
Lemma edges posterior : bspline_posterior posterior pops rates ->
  exists vars coords, bspline_export posterior nm nq na na nct nct (Fin mmin) (Fin mmax) zm (length pops) = Ok (vars, coords) /\
  forall i p, nth_error pops i = Some p -> exists rm rq, exported vars "mass_1" i rm /\ exported vars "mass_ratio" i rq /\
    nth 0 rm NaN = Fin 0 /\ 0 < mass_pdf p mmin /\ nth 0 rq NaN = Fin 0 /\ 0 < ratio_pdf p (mmin / mmax).
Proof.
  intros H. destruct (exports posterior H) as ((vars & EV & K) & _). exists vars. eexists. split; [exact EV|]. intros i p Hi.
  destruct (K i p Hi) as (r1 & r2 & t1 & t2 & rm & rq & rz & _ & _ & _ & _ & X1 & X2 & _ & _ & _ & _ & _ & (M1 & M2) & _). exists rm, rq. split; auto. split; auto.
  destruct (HP p (nth_error_In _ _ Hi)) as ((M & _) & T1 & T2 & _). rewrite T1, T2 in M. 
  assert (QL : mmin / mmax < 1) by (apply (Rmult_lt_reg_r mmax); [lra|]; unfold Rdiv; rewrite Rmult_assoc, Rinv_l by lra; lra). assert (QP : 0 < mmin / mmax) by (apply Rdiv_lt_0_compat; lra).
  assert (F : forall a b g tot row, rate_curve (rlinspace a b 800) g tot row -> g a = 0 -> nth 0 row NaN = Fin 0).
  { intros a b g tot row (c & -> & _) HG. rewrite (PBSplines.nth_map' _ _ _ _ 0) by (rewrite rlinspace_length; apply Nat.lt_le_trans with 2%nat; [lia|apply two_eight]). rewrite PSplinePert.rlinspace_first by (apply Nat.le_trans with 2%nat; [lia|apply two_eight]). rewrite HG, Rmult_0_r. reflexivity. }
  assert (TZ : forall xs : list R, trapezoid xs (map (fun _ => 0) xs) = 0).
  { intros xs. rewrite <- (map_map (fun x => x) (fun _ => 0)). rewrite (map_ext _ (fun x => 0 * x)) by (intros; ring). rewrite map_id. rewrite <- (map_id xs) at 2. rewrite map_map. rewrite <- (map_map (fun x => x) (fun y => 0 * y)), trapezoid_scal. ring. }
  split; [|split; [|split]].
  - apply (F _ _ _ _ _ M1). unfold marginal_m. rewrite (map_ext_in _ (fun _ => 0)); [apply TZ|]. intros q Hq. apply rlinspace_range in Hq; [|lra]. unfold above_minimum. rewrite Rltb_f by nra. reflexivity.
  - unfold mass_pdf. rewrite T1, T2. apply log_pdf_pos; [lra| |lra]. apply (Nat.leb_le 2 1500). reflexivity.
  - apply (F _ _ _ _ _ M2). unfold marginal_q. rewrite (map_ext_in _ (fun _ => 0)); [apply TZ|]. intros m Hm. apply rlinspace_range in Hm; [|lra]. unfold above_minimum. rewrite Rltb_f; [reflexivity|].
    assert (mmin / mmax * mmax = mmin) by (field; lra). nra.
  - unfold ratio_pdf. rewrite T1, T2. apply log_pdf_pos; [lra| |lra]. apply (Nat.leb_le 2 1000). reflexivity.
Qed.
End Rates.
Lemma setup_exists dVcdz pe inj n events found nz : data_ok pe inj n events found -> (4 <= nz)%nat -> 0 < z_low events found < z_high events found ->
  exists zm, setup_powerlaw_spline_redshift_model dVcdz pe inj (AInt (Z.of_nat nz)) = Ok zm.
Proof.
  intros HD HN HZ. destruct (redshift_columns _ _ _ _ _ HD) as (p0 & zs & i0 & is & (t & E1 & E2 & E3) & ZL & ZH & PP & PI). rewrite ZL, ZH in HZ.
  unfold setup_powerlaw_spline_redshift_model. rewrite E1, E3. cbn [rbind]. unfold flat. rewrite E2. cbn [map]. rewrite PSetup.count_ok. cbn [rbind]. unfold make_plz_model. rewrite init_fin. cbn [zm_min zm_max zm_zs].
  destruct (make_default KLogX nz 4 (grid_lo p0 zs i0 is) (grid_hi p0 zs i0 is) false ltac:(lia) ltac:(split; [lra|intros; lra])) as (sp & ES & _). rewrite ES. cbn [rbind]. eauto.
Qed.
Lemma bspline_exports pe inj n events found mmin mmax nm nq na nct nz pops rates dVcdz posterior :
  data_ok pe inj n events found -> pops <> [] -> (forall p, In p pops -> same_ranges mmin mmax (z_low events found) (z_high events found) nm nq na nct nz p) -> bspline_posterior posterior pops rates ->
  let zlo := z_low events found in let zhi := z_high events found in
  exists zm vars, setup_powerlaw_spline_redshift_model dVcdz pe inj (AInt (Z.of_nat nz)) = Ok zm /\
  bspline_export posterior nm nq na na nct nct (Fin mmin) (Fin mmax) zm (length pops) = Ok (vars, coords_of (export_grid mmin mmax zlo zhi) (length pops)) /\
  forall i p, nth_error pops i = Some p -> exists r1 r2 t1 t2 rm rq rz,
    exported vars "a1" i r1 /\ exported vars "a2" i r2 /\ exported vars "cos_tilt1" i t1 /\ exported vars "cos_tilt2" i t2 /\ exported vars "mass_1" i rm /\ exported vars "mass_ratio" i rq /\ exported vars "redshift" i rz /\
    rate_curve (rlinspace 0 1 800) (spin_pdf (o_a1 p)) 1 r1 /\ rate_curve (rlinspace 0 1 800) (spin_pdf (o_a2 p)) 1 r2 /\
    rate_curve (rlinspace (-1) 1 800) (cosine_pdf (o_t1 p)) 1 t1 /\ rate_curve (rlinspace (-1) 1 800) (cosine_pdf (o_t2 p)) 1 t2 /\
    mass_rate_curves mmin mmax (above_minimum mmin (fun m q => mass_pdf p m * ratio_pdf p q)) 1 rm rq /\
    rate_of zlo zhi (o_vol p) (z_pdf p) (nth i rates 0) (fun z => Rpower (1 + z) (o_lamb p) * exp (curve (ln zlo) (ln zhi) nz 4 (o_z p) (ln z))) rz.
Proof.
  intros HD NE HP HO zlo zhi. destruct (some_in pops NE) as (p0 & Hp0). destruct (HP p0 Hp0) as ((_ & Z & _ & _ & _ & _ & _ & _ & _ & _ & _ & Z1 & _) & _ & _ & T3 & T4 & _ & _ & _ & _ & T9 & _). rewrite T3, T4 in Z. rewrite T9 in Z1.
  destruct (setup_exists dVcdz pe inj n events found nz HD Z1 Z) as (zm & E). assert (LR : length rates = length pops) by apply HO.
  destruct (exports pe inj n events found HD mmin mmax nm nq na nct nz pops rates dVcdz zm NE HP E LR posterior HO) as ((vars & K1 & K2) & _). exists zm, vars. auto.
Qed.
Lemma bspline_edges pe inj n events found mmin mmax nm nq na nct nz pops rates dVcdz zm posterior :
  data_ok pe inj n events found -> pops <> [] -> (forall p, In p pops -> same_ranges mmin mmax (z_low events found) (z_high events found) nm nq na nct nz p) ->
  setup_powerlaw_spline_redshift_model dVcdz pe inj (AInt (Z.of_nat nz)) = Ok zm -> bspline_posterior posterior pops rates ->
  exists vars coords, bspline_export posterior nm nq na na nct nct (Fin mmin) (Fin mmax) zm (length pops) = Ok (vars, coords) /\
  forall i p, nth_error pops i = Some p -> exists rm rq, exported vars "mass_1" i rm /\ exported vars "mass_ratio" i rq /\
    nth 0 rm NaN = Fin 0 /\ 0 < mass_pdf p mmin /\ nth 0 rq NaN = Fin 0 /\ 0 < ratio_pdf p (mmin / mmax).
Proof. intros HD NE HP HM HO. assert (LR : length rates = length pops) by apply HO. exact (edges pe inj n events found HD mmin mmax nm nq na nct nz pops rates dVcdz zm NE HP HM LR posterior HO). Qed.
Lemma bspline_chains pe inj n events found mmin mmax nm nq na nct nz pops rates dVcdz zm posterior samples :
  data_ok pe inj n events found -> pops <> [] -> (forall p, In p pops -> same_ranges mmin mmax (z_low events found) (z_high events found) nm nq na nct nz p) ->
  setup_powerlaw_spline_redshift_model dVcdz pe inj (AInt (Z.of_nat nz)) = Ok zm -> bspline_posterior posterior pops rates ->
  samples <> length pops -> bspline_export posterior nm nq na na nct nct (Fin mmin) (Fin mmax) zm samples = Err ValueError.
Proof. intros HD NE HP HM HO HS. assert (LR : length rates = length pops) by apply HO. destruct (exports pe inj n events found HD mmin mmax nm nq na nct nz pops rates dVcdz zm NE HP HM LR posterior HO) as (_ & K). auto. Qed.
