(** The likelihood of the B-spline population model in elementary terms. *)
From Coq Require Import Permutation.
From Verif Require Import PSetup PAnalysisCuts PBSplineGauge PSplineValue PBSplineCode PBSplineMake PSplineEval PAnalysisPPC ArrFacts.
From Verif Require Import SpecFit.
Open Scope R_scope.
Open Scope string_scope.
Open Scope list_scope.

(** the model's density at one sample is the normalised exponential of the curve *)
Lemma log_curve s n a b cs x : (4 <= n)%nat -> length cs = n -> valid_range s a b -> a <= x <= b ->
  logval s n 4 a b x cs = curve (coord s a) (coord s b) n 4 cs (coord s x).
Proof.
  intros Hn HC HR HX. destruct HR as [HAB HL]. unfold logval, colR, curve.
  assert (CX : coord s a <= coord s x <= coord s b).
  { unfold coord. destruct (logx s) eqn:LX; auto. specialize (HL eq_refl). split; apply ln_le'; lra. }
  rewrite !Rleb_t by lra. cbn [andb]. subst n. rewrite PSplineEval.sum_by_index. f_equal. apply map_ext_in. intros i Hi. apply in_seq in Hi. f_equal.
  apply Bspline_ext. intros j Hj. rewrite uniform_nth by lia. reflexivity.
Qed.
Definition unit_of (s : skind) : R -> R := coord s.
Lemma density_explicit s lo hi n cs x p : s = KLogXLogY \/ s = KLogY -> valid_range s lo hi -> (4 <= n)%nat -> length cs = n -> (forall c, In c cs -> - FMAX < c) ->
  1 / 10 ^ 6 <= (coord s hi - coord s lo) / INR (n - 3) ->
  density_at s (Fin lo, Fin hi) no_opts n (map Fin cs) (Fin x) p -> p = Fin (log_spline_pdf (coord s) (grid_size s) lo hi n cs x).
Proof.
  intros Hs HR Hn HC HF HW (sp & lo' & hi' & ER & EM & HI & HO). unfold no_opts, dflt in *. cbn [o_range o_basis o_degree o_knots o_interior o_normalize] in *. injection ER as <- <-.
  change (3 + 1)%nat with 4%nat in EM.
  assert (HY : logy s = true) by (destruct Hs as [->| ->]; reflexivity). assert (DN : default_normalize s = true) by (destruct Hs as [->| ->]; reflexivity). rewrite DN in EM.
  assert (HW' : 1 / 10 ^ 6 <= (coord s hi - coord s lo) / INR (n + 1 - 4)) by (replace (n + 1 - 4)%nat with (n - 3)%nat by lia; auto).
  destruct (log_density s n 4 lo hi HY ltac:(lia) HR HW' cs HC HF) as (sp' & I & EM' & PI & EI & EV & _). rewrite EM in EM'. injection EM' as <-.
  unfold log_spline_pdf. destruct (Rleb lo x && Rleb x hi)%bool eqn:E.
  - apply andb_true_iff in E as [E1 E2]. apply Rleb_true in E1, E2. specialize (HI (ex_intro _ x (conj eq_refl (conj E1 E2)))).
    specialize (EV (x :: nil)). cbn [map] in EV. rewrite HI in EV. injection EV as ->. apply (f_equal Fin). rewrite !Rleb_t by lra. cbn [andb].
    unfold scaled_on. rewrite log_curve by auto. assert (GI : I = trapezoid (rlinspace lo hi (grid_size s)) (map (fun x => exp (curve (coord s lo) (coord s hi) n 4 cs (coord s x))) (rlinspace lo hi (grid_size s)))).
    { rewrite EI. f_equal. apply map_ext_in. intros y Hy. apply rlinspace_range in Hy; [|destruct HR; lra]. rewrite !Rleb_t by lra. cbn [andb]. rewrite log_curve by auto. reflexivity. }
    rewrite <- GI. unfold Rdiv. ring.
  - apply HO. intros (v & EV' & V1 & V2). injection EV' as <-. rewrite !Rleb_t in E by auto. discriminate.
Qed.

Lemma scaled_pos grid g x : increasing grid -> (2 <= length grid)%nat -> (forall y, In y grid -> 0 < g y) -> 0 < g x -> 0 < scaled_on grid g x.
Proof.
  intros HI HL HP HX. unfold scaled_on. apply Rdiv_lt_0_compat; auto. apply trapezoid_pos; auto.
  - rewrite map_length; auto.
  - intros y Hy. apply in_map_iff in Hy as (z & <- & Hz). left. auto.
  - intros y Hy. assert (HY : In y (map g grid)) by (destruct (map g grid); [destruct Hy|right; auto]). apply in_map_iff in HY as (z & <- & Hz). auto.
Qed.
Lemma log_pdf_pos u m lo hi n cs x : lo < hi -> (2 <= m)%nat -> lo <= x <= hi -> 0 < log_spline_pdf u m lo hi n cs x.
Proof.
  intros H Hm HX. unfold log_spline_pdf. rewrite !Rleb_t by lra. cbn [andb]. apply scaled_pos; [apply rlinspace_increasing; auto|rewrite rlinspace_length; auto| |]; intros; apply exp_pos.
Qed.
Lemma log_pdf_nonneg u m lo hi n cs x : lo < hi -> (2 <= m)%nat -> 0 <= log_spline_pdf u m lo hi n cs x.
Proof.
  intros H Hm. destruct (Rle_dec lo x) as [L|L]; [destruct (Rle_dec x hi) as [U|U]|]; [left; apply log_pdf_pos; auto| |];
    unfold log_spline_pdf; [rewrite (Rleb_f x hi) by lra; rewrite andb_false_r; lra|rewrite (Rleb_f lo x) by lra; cbn; lra].
Qed.
Lemma z_pdf_pos v a b lamb n cs z : 0 < a < b -> (forall z, 0 < z -> 0 < v z) -> 0 < z <= b -> 0 < redshift_density v a b lamb n cs z.
Proof.
  intros H HV HZ. unfold redshift_density. rewrite Rleb_t by lra. 
  assert (P : forall y, 0 < y -> 0 < v y * Rpower (1 + y) (lamb - 1) * exp (curve (ln a) (ln b) n 4 cs (ln y))).
  { intros y Hy. apply Rmult_lt_0_compat; [apply Rmult_lt_0_compat; [auto|apply exp_pos]|apply exp_pos]. }
  apply scaled_pos; [apply rlinspace_increasing; lra|rewrite rlinspace_length; lia| |apply P; lra].
  intros y Hy. apply rlinspace_range in Hy; [|lra]. apply P. lra.
Qed.
Lemma z_pdf_nonneg v a b lamb n cs z : 0 < a < b -> (forall z, 0 < z -> 0 < v z) -> 0 < z -> 0 <= redshift_density v a b lamb n cs z.
Proof.
  intros H HV HZ. destruct (Rle_dec z b) as [L|L]; [left; apply z_pdf_pos; auto|]. unfold redshift_density. rewrite Rleb_f by lra. lra.
Qed.
Lemma weight_nonneg p b : population_ok p -> 0 < b_z b -> 0 < b_prior b -> 0 <= weight p b.
Proof.
  intros (M & Z & V & S1 & S2 & _) HZ HP. unfold weight. assert (QL : o_mmin p / o_mmax p < 1) by (apply (Rmult_lt_reg_r (o_mmax p)); [lra|]; unfold Rdiv; rewrite Rmult_assoc, Rinv_l by lra; lra).
  apply Rmult_le_pos; [|left; apply Rinv_0_lt_compat; auto]. apply Rmult_le_pos; [|apply z_pdf_nonneg; auto].
  apply Rmult_le_pos; [apply Rmult_le_pos; apply Rmult_le_pos|apply Rmult_le_pos]; (apply log_pdf_nonneg; [lra|]); apply Nat.leb_le; reflexivity.
Qed.
Lemma weight_pos p b : population_ok p -> 0 < b_z b -> 0 < b_prior b -> covered p b -> 0 < weight p b.
Proof.
  intros (M & Z & V & S1 & S2 & _) HZ HP (C1 & C2 & C3 & C4 & C5 & C6 & C7). unfold weight. assert (QL : o_mmin p / o_mmax p < 1) by (apply (Rmult_lt_reg_r (o_mmax p)); [lra|]; unfold Rdiv; rewrite Rmult_assoc, Rinv_l by lra; lra).
  apply Rmult_lt_0_compat; [|apply Rinv_0_lt_compat; auto]. apply Rmult_lt_0_compat; [|apply z_pdf_pos; auto; lra].
  apply Rmult_lt_0_compat; [apply Rmult_lt_0_compat; apply Rmult_lt_0_compat|apply Rmult_lt_0_compat]; (apply log_pdf_pos; [lra| |lra]); apply Nat.leb_le; reflexivity.
Qed.

Lemma fold_min_pos l x : 0 < x -> (forall y, In y l -> 0 < y) -> 0 < fold_left Rmin l x.
Proof. revert x. induction l as [|y l IH]; intros x HX H; cbn; auto. apply IH; [apply Rmin_pos; auto; apply H; cbn; auto|]. intros; apply H; cbn; auto. Qed.
Lemma has_of_tables pe inj n events found c f : tables_hold pe inj n events found -> In (c, f) columns -> has_data pe inj (length events) n (length found) c.
Proof.
  intros (HN & HT) HI. destruct (HT c f HI) as [H1 H2]. split.
  - eexists. split; [exact H1|]. cbn. split; auto. split; [now rewrite map_length|]. apply Forall_forall. intros r Hr. apply in_map_iff in Hr as (e & <- & He). rewrite map_length.
    rewrite Forall_forall in HN. auto.
  - eexists. split; [exact H2|]. now rewrite map_length.
Qed.
Lemma at2_of pe inj n events found c f i j b0 : tables_hold pe inj n events found -> In (c, f) columns -> (i < length events)%nat -> (j < n)%nat ->
  at2 pe c i j = Fin (f (nth j (nth i events []) b0)).
Proof.
  intros (HN & HT) HI Hi Hj. destruct (HT c f HI) as [H1 _]. unfold at2. rewrite H1. cbn [a_rows].
  rewrite (nth_indep _ [] (map (fun b => Fin (f b)) [])) by (now rewrite map_length). rewrite (map_nth (map (fun b => Fin (f b)))).
  assert (L : length (nth i events []) = n) by (rewrite Forall_forall in HN; apply HN, nth_In; auto).
  rewrite (nth_indep _ NaN (Fin (f b0))) by (rewrite map_length, L; auto). apply (map_nth (fun b => Fin (f b))).
Qed.
Lemma at1_of pe inj n events found c f j b0 : tables_hold pe inj n events found -> In (c, f) columns -> (j < length found)%nat ->
  at1 inj c j = Fin (f (nth j found b0)).
Proof.
  intros (HN & HT) HI Hj. destruct (HT c f HI) as [_ H2]. unfold at1. rewrite H2.
  rewrite (nth_indep _ NaN (Fin (f b0))) by (rewrite map_length; auto). apply (map_nth (fun b => Fin (f b))).
Qed.
Lemma drawn_fin draw site k : drawn (fun s i => Fin (draw s i)) site k = map Fin (map (draw site) (seq 0 k)).
Proof. unfold drawn. rewrite map_map. reflexivity. Qed.

Lemma weight_explicit mmin mmax v zl zh lamb draw nm nq na nct nz x b y :
  let p := drawn_population mmin mmax v zl zh lamb draw nm nq na nct nz in population_ok p -> 0 < b_prior b -> (1 <= nz)%nat ->
  (forall c f, In (c, f) columns -> x c = Fin (f b)) ->
  let rv := fun s i => Fin (draw s i) in
  sample_weight mmin mmax nm nq na nct (drawn rv "mass_cs" nm) (drawn rv "q_cs" nq) (drawn rv "a1_cs" na) (drawn rv "tilt1_cs" nct) (drawn rv "a2_cs" na) (drawn rv "tilt2_cs" nct)
      (redshift_density v zl zh lamb nz (0 :: map (draw "z_cs") (seq 0 (nz - 1)))) x y -> y = Fin (weight p b).
Proof.
  intros p OK HP HN HX rv (pm & pa & pt & z & (p1 & p2 & D1 & D2 & EM) & (p3 & p4 & D3 & D4 & EA) & (p5 & p6 & D5 & D6 & ET) & EZ & ->).
  unfold rv in *. rewrite drawn_fin in D1, D2, D3, D4, D5, D6.
  assert (LV : forall s k, length (map (draw s) (seq 0 k)) = k) by (intros; now rewrite map_length, seq_length).
  destruct OK as (M & Z & V & (A1 & A2 & A3) & (B1 & B2 & B3) & (C1 & C2 & C3) & (E1 & E2 & E3) & (F1 & F2 & F3) & (G1 & G2 & G3) & _).
  unfold p, drawn_population in *. cbn [o_mmin o_mmax o_vol o_zlo o_zhi o_lamb o_m o_q o_a1 o_a2 o_t1 o_t2 o_z] in *. rewrite !LV in *.
  assert (QL : mmin / mmax < 1) by (apply (Rmult_lt_reg_r mmax); [lra|]; unfold Rdiv; rewrite Rmult_assoc, Rinv_l by lra; lra).
  rewrite (HX "mass_1" b_m1) in D1 by (cbn; tauto). rewrite (HX "mass_ratio" b_q) in D2 by (cbn; tauto). rewrite (HX "a_1" b_a1) in D3 by (cbn; tauto). rewrite (HX "a_2" b_a2) in D4 by (cbn; tauto).
  rewrite (HX "cos_tilt_1" b_c1) in D5 by (cbn; tauto). rewrite (HX "cos_tilt_2" b_c2) in D6 by (cbn; tauto). rewrite (HX "redshift" b_z) in EZ by (cbn; tauto). rewrite (HX "prior" b_prior) by (cbn; tauto).
  injection EZ as <-.
  apply density_explicit in D1; auto; [|split; [lra|intros; lra]]. 
  apply density_explicit in D2; auto; [|split; [lra|discriminate]].
  apply density_explicit in D3; auto; [|split; [lra|discriminate]|unfold coord; cbn [logx]; rewrite Rminus_0_r; auto].
  apply density_explicit in D4; auto; [|split; [lra|discriminate]|unfold coord; cbn [logx]; rewrite Rminus_0_r; auto].
  apply density_explicit in D5; auto; [|split; [lra|discriminate]|unfold coord; cbn [logx]; replace (1 - -1) with 2 by ring; auto].
  apply density_explicit in D6; auto; [|split; [lra|discriminate]|unfold coord; cbn [logx]; replace (1 - -1) with 2 by ring; auto].
  subst. rewrite !nmul_fin, ndiv_fin by lra. apply (f_equal Fin). unfold weight, mass_pdf, ratio_pdf, spin_pdf, cosine_pdf, z_pdf.
  cbn [o_mmin o_mmax o_vol o_zlo o_zhi o_lamb o_m o_q o_a1 o_a2 o_t1 o_t2 o_z]. rewrite !LV. cbn [length]. rewrite LV. replace (S (nz - 1)) with nz by lia.
  change (log_spline_pdf (coord KLogXLogY) (grid_size KLogXLogY)) with (log_spline_pdf ln 1500). change (log_spline_pdf (coord KLogY) (grid_size KLogY)) with (log_spline_pdf (fun x => x) 1000).
  unfold Rdiv. ring.
Qed.

Lemma list_by_concat (rows : list (list num)) (n : nat) (es : list (list num)) : Forall (fun r => length r = n) rows -> Forall (fun r => length r = n) es -> length rows = length es ->
  (forall i j, (i < length es)%nat -> (j < n)%nat -> nth (i * n + j) (concat rows) NaN = nth j (nth i es []) NaN) -> rows = es.
Proof.
  revert es. induction rows as [|r rows IH]; intros [|e es] HR HE HL H; try discriminate; auto. inversion_clear HR as [|? ? R1 R2]. inversion_clear HE as [|? ? E1 E2]. f_equal.
  - apply (nth_ext _ _ NaN NaN); [lia|]. intros j Hj. specialize (H 0%nat j ltac:(cbn; lia) ltac:(lia)). cbn [Nat.mul Nat.add nth concat] in H. rewrite app_nth1 in H by auto. exact H.
  - apply IH; auto. intros i j Hi Hj. specialize (H (S i) j ltac:(cbn; lia) Hj). cbn [concat nth] in H. rewrite app_nth2 in H by (rewrite R1; cbn; lia).
    rewrite R1 in H. replace (S i * n + j - n)%nat with (i * n + j)%nat in H by (cbn; lia). exact H.
Qed.
Lemma model_fit keywords draw lamb a d dVcdz v pe inj n events found nm nq na nct nz mmin mmax N :
  binds likelihood_parameters 5 keywords = true -> tables_hold pe inj n events found -> (1 <= nz)%nat -> (forall z, -1 < z -> dVcdz (Fin z) = Fin (v z)) ->
  let p := drawn_population mmin mmax v (z_low events found) (z_high events found) lamb draw nm nq na nct nz in
  fit_ok a n events found N p ->
  exists mass mag tilt zm, example_setup dVcdz pe inj (AInt (Z.of_nat nm)) (AInt (Z.of_nat nq)) (AInt (Z.of_nat na)) (AInt (Z.of_nat nct)) (AInt (Z.of_nat nz)) (Fin mmin) (Fin mmax) = Ok (mass, mag, tilt, zm) /\
    factors (fst (snd (bspline_example_with keywords (fun s i => Fin (draw s i)) (Fin lamb) a d pe inj mass mag tilt zm nm nq na nct nz))) =
    (Site Factor "log_likelihood" (Scal (Fin (log_likelihood a p events found N))) :: nil).
Proof.
  intros HB HT HNZ HV p ((K1 & K2 & K3 & K4 & K5 & K6 & K7 & K8 & K9) & OK & HP & HE & HF & HC1 & HC2). unfold log_likelihood. cbv zeta. cbv zeta in HC1, HC2. rewrite <- K5 in *.
  rewrite <- (map_map (map (weight p)) (fun r => ln (mean r))). set (rows := map (map (weight p)) events) in *. set (ws := map (weight p) found) in *.
  assert (LV : forall s k, length (map (draw s) (seq 0 k)) = k) by (intros; now rewrite map_length, seq_length).
  destruct HT as (HN & HT0). pose proof (conj HN HT0 : tables_hold pe inj n events found) as HT. clear HT0.
  (* redshifts *)
  set (zp := map b_z (concat events)). set (zi := map b_z found).
  assert (NP : exists p0 zs, zp = p0 :: zs).
  { destruct events as [|e es]; [congruence|]. destruct e as [|b e]; [inversion_clear HN as [|? ? L _]; cbn in L; lia|]. unfold zp. cbn. eauto. }
  assert (NI : exists i0 is, zi = i0 :: is) by (destruct HF as (b & HB' & _); destruct found as [|b' l]; [destruct HB'|]; unfold zi; cbn; eauto).
  destruct NP as (p0 & zs & EP). destruct NI as (i0 & is & EI).
  assert (ZL : z_low events found = grid_lo p0 zs i0 is) by (unfold z_low; fold zp zi; rewrite EP, EI; reflexivity).
  assert (ZH : z_high events found = grid_hi p0 zs i0 is) by (unfold z_high; fold zp zi; rewrite EP, EI; reflexivity).
  assert (PP : forall z, In z (p0 :: zs) -> 0 < z) by (intros z Hz; rewrite <- EP in Hz; apply in_map_iff in Hz as (b & <- & Hb); apply HP, in_or_app; auto).
  assert (PI : forall z, In z (i0 :: is) -> 0 < z) by (intros z Hz; rewrite <- EI in Hz; apply in_map_iff in Hz as (b & <- & Hb); apply HP, in_or_app; auto).
  pose proof OK as OK0. destruct OK0 as (M & Z & V & (A1 & _ & A3) & (B1 & _) & (C1 & _) & _ & (F1 & _) & _ & _ & _ & Z1 & Z2).
  unfold p, drawn_population in M, Z, V, A1, B1, C1, F1, Z1, Z2. cbn [o_mmin o_mmax o_vol o_zlo o_zhi o_lamb o_m o_q o_a1 o_a2 o_t1 o_t2 o_z length] in M, Z, V, A1, B1, C1, F1, Z1, Z2. rewrite LV in A1, B1, C1, F1, Z1, Z2.
  replace (S (nz - 1)) with nz in Z1, Z2 by lia. rewrite ZL, ZH in *.
  assert (GR : good_redshifts KLogX dVcdz v p0 zs i0 is).
  { unfold good_redshifts. split; [lra|]. split; [intros _; split; [lra|split; apply Forall_forall; auto]|]. split; [split; apply Forall_forall; intros z Hz; [apply PP in Hz|apply PI in Hz]; lra|].
    split; auto. split; intros z Hz; [left|]; apply V; lra. }
  assert (RA : redshifts_are pe inj p0 zs i0 is).
  { destruct (proj2 HT "redshift" b_z ltac:(cbn; tauto)) as [H1 H2]. eexists. split; [exact H1|]. cbn [a_rows]. split.
    - rewrite <- EP. unfold zp. rewrite map_map. rewrite concat_map. reflexivity.
    - rewrite H2, <- EI. unfold zi. rewrite map_map. reflexivity. }
  assert (HD : forall c, In c ["mass_1"; "mass_ratio"; "a_1"; "a_2"; "cos_tilt_1"; "cos_tilt_2"; "redshift"; "prior"] -> has_data pe inj (Nobs a) n (length found) c).
  { rewrite K5. intros c Hc. assert (X : exists f, In (c, f) columns).
    { change ["mass_1"; "mass_ratio"; "a_1"; "a_2"; "cos_tilt_1"; "cos_tilt_2"; "redshift"; "prior"] with (map fst columns) in Hc. apply in_map_iff in Hc as ((c', f) & <- & H). exists f. exact H. }
    destruct X as (f & X). apply (has_of_tables _ _ _ _ _ _ f HT X). }
  assert (WR : wide_range KLogX nz 4 (grid_lo p0 zs i0 is) (grid_hi p0 zs i0 is)).
  { unfold wide_range, coord. cbn [logx]. replace (nz + 1 - 4)%nat with (nz - 3)%nat by lia. exact Z2. }
  destruct (example_call keywords (fun s i => Fin (draw s i)) lamb a d dVcdz v pe inj (Nobs a) n (length found) nm nq na nct nz mmin mmax p0 zs i0 is (draw "z_cs") HB HD M A1 B1 C1 F1 Z1 RA GR WR ltac:(reflexivity))
    as (mass & mag & tilt & zm & ES & rr & I & EC & LR & FR & LP & LI & WP & WI).
  exists mass, mag, tilt, zm. split; [exact ES|]. rewrite EC. rewrite K5 in LR, LP, WP.
  set (b0 := Binary 0 0 0 0 0 0 0 0).
  assert (EI' : I = map Fin ws).
  { apply (nth_ext _ _ NaN (Fin (weight p b0))); [unfold ws; rewrite !map_length; auto|]. intros j Hj. rewrite LI in Hj. unfold ws. rewrite map_map, (map_nth (fun b => Fin (weight p b))).
    unfold p. apply (weight_explicit _ _ _ _ _ _ _ _ _ _ _ _ (fun c => at1 inj c j)); auto; [apply HP, in_or_app; right; apply nth_In; auto| |].
    - intros c f Hcf. apply (at1_of pe inj n events found); auto.
    - rewrite ZL, ZH. apply WI. auto. }
  assert (ER : rr = map (enc false) rows).
  { apply (list_by_concat rr n); auto.
    - apply Forall_forall. intros r Hr. unfold rows in Hr. rewrite map_map in Hr. apply in_map_iff in Hr as (e & <- & He). unfold enc. rewrite !map_length. rewrite Forall_forall in HN. auto.
    - unfold rows. rewrite !map_length. auto.
    - intros i j Hi Hj. unfold rows in *. rewrite !map_length in Hi. rewrite map_map.
      change (@nil num) with (enc false (map (weight p) [])). rewrite (map_nth (fun e => enc false (map (weight p) e))). unfold enc. rewrite map_map.
      assert (L : length (nth i events []) = n) by (rewrite Forall_forall in HN; apply HN, nth_In; auto).
      rewrite (nth_indep (map _ (nth i events [])) NaN (Fin (weight p b0))) by (rewrite map_length, L; auto). rewrite (map_nth (fun b => Fin (weight p b))).
      unfold p. apply (weight_explicit _ _ _ _ _ _ _ _ _ _ _ _ (fun c => at2 pe c i j)); auto.
      + apply HP, in_or_app. left. apply in_concat. exists (nth i events []). split; apply nth_In; [auto|rewrite L; auto].
      + intros c f Hcf. apply (at2_of pe inj n events found); auto.
      + rewrite ZL, ZH. apply WP; auto. }
  rewrite ER, EI'. change (map Fin ws) with (enc false ws). pose proof (hl_value a d n N rows ws) as HLV. rewrite K2 in HLV.
  assert (WN : forall l, (forall b, In b l -> 0 < b_z b /\ 0 < b_prior b) -> nonneg_list (map (weight p) l)).
  { intros l H. apply Forall_forall. intros w Hw. apply in_map_iff in Hw as (b & <- & Hb). apply weight_nonneg; auto; apply H; auto. }
  assert (SP : forall l, (forall b, In b l -> 0 < b_z b /\ 0 < b_prior b) -> (exists b, In b l /\ covered p b) -> 0 < Rlsum (map (weight p) l)).
  { intros l H (b & Hb & Cb). apply PAnalysisPPC.Rlsum_pos_ex; [pose proof (WN l H) as W; intros x Hx; unfold nonneg_list in W; rewrite Forall_forall in W; auto|]. exists (weight p b). split; [apply in_map; auto|]. destruct (H b Hb). apply weight_pos; auto. }
  apply HLV; auto. unfold value_hyps, good_rows. repeat match goal with |- _ /\ _ => split end; auto.
  - apply Forall_forall. intros r Hr. unfold rows in Hr. apply in_map_iff in Hr as (e & <- & He). split; [rewrite map_length; rewrite Forall_forall in HN; auto|].
    assert (H : forall b, In b e -> 0 < b_z b /\ 0 < b_prior b) by (intros b Hb; apply HP, in_or_app; left; apply in_concat; eauto). split; [apply WN; auto|apply SP; auto].
  - unfold rows. destruct events; [congruence|discriminate].
  - unfold rows. rewrite map_length. auto.
  - apply WN. intros; apply HP, in_or_app; auto.
  - apply SP; auto. intros; apply HP, in_or_app; auto.
  - unfold ws. rewrite map_length. auto.
Qed.

(** ** constants that cancel *)
Lemma curve_shift s n a b cs d x : logy s = true -> (4 <= n)%nat -> length cs = n -> valid_range s a b -> 1 / 10 ^ 6 <= (coord s b - coord s a) / INR (n - 3) -> a <= x <= b ->
  curve (coord s a) (coord s b) n 4 (map (fun c => c + d) cs) (coord s x) = curve (coord s a) (coord s b) n 4 cs (coord s x) + d.
Proof.
  intros HY Hn HC HR HW HX. rewrite <- !log_curve by (rewrite ?map_length; auto). unfold logval. rewrite shift_sum by (rewrite colR_length; auto).
  replace (n - 3)%nat with (n + 1 - 4)%nat in HW by lia. rewrite colR_sum; auto; try lia. ring.
Qed.
Lemma scaled_shift grid g g' k x : k <> 0 -> (forall y, In y grid -> g' y = k * g y) -> g' x = k * g x -> scaled_on grid g' x = scaled_on grid g x.
Proof.
  intros HK HG HX. unfold scaled_on. rewrite HX. rewrite (map_ext_in g' (fun y => k * g y)) by auto. rewrite <- (map_map g (fun y => k * y)), trapezoid_scal.
  destruct (Req_dec (trapezoid grid (map g grid)) 0) as [E|E]; [|field; auto]. rewrite E, Rmult_0_r. unfold Rdiv. rewrite Rinv_0. ring.
Qed.
Lemma log_pdf_shift s n a b cs d x : logy s = true -> valid_range s a b -> length cs = n -> (4 <= n)%nat -> 1 / 10 ^ 6 <= (coord s b - coord s a) / INR (n - 3) ->
  log_spline_pdf (coord s) (grid_size s) a b n (map (fun c => c + d) cs) x = log_spline_pdf (coord s) (grid_size s) a b n cs x.
Proof.
  intros HY HR HC Hn HW. unfold log_spline_pdf. destruct (Rleb a x && Rleb x b)%bool eqn:E; auto. apply andb_true_iff in E as [E1 E2]. apply Rleb_true in E1, E2.
  pose proof (exp_pos d). apply (scaled_shift _ _ _ (exp d)); [lra| |].
  - intros y Hy. apply rlinspace_range in Hy; [|destruct HR; lra]. rewrite curve_shift by auto. rewrite exp_plus. ring.
  - rewrite curve_shift by auto. rewrite exp_plus. ring.
Qed.
Lemma vec_shift (draw draw' : string -> nat -> R) shift site k : (forall i, draw' site i = draw site i + shift site) -> map (draw' site) (seq 0 k) = map (fun c => c + shift site) (map (draw site) (seq 0 k)).
Proof. intros H. rewrite map_map. apply map_ext. intros i. apply H. Qed.
Lemma weight_shift mmin mmax v zl zh lamb draw draw' shift nm nq na nct nz b :
  let p := drawn_population mmin mmax v zl zh lamb draw nm nq na nct nz in let p' := drawn_population mmin mmax v zl zh lamb draw' nm nq na nct nz in
  population_ok p -> (forall site i, draw' site i = draw site i + shift site) -> shift "z_cs" = 0 -> weight p' b = weight p b.
Proof.
  intros p p' OK HD HZ. assert (LV : forall d s k, length (map ((d : string -> nat -> R) s) (seq 0 k)) = k) by (intros; now rewrite map_length, seq_length).
  destruct OK as (M & Z & V & (A1 & A2 & A3) & (B1 & B2 & B3) & (C1 & C2 & C3) & (E1 & E2 & E3) & (F1 & F2 & F3) & (G1 & G2 & G3) & _).
  unfold p, p', weight, mass_pdf, ratio_pdf, spin_pdf, cosine_pdf, z_pdf, drawn_population in *. cbn [o_mmin o_mmax o_vol o_zlo o_zhi o_lamb o_m o_q o_a1 o_a2 o_t1 o_t2 o_z] in *. cbn [length]. rewrite !LV in *.
  assert (QL : mmin / mmax < 1) by (apply (Rmult_lt_reg_r mmax); [lra|]; unfold Rdiv; rewrite Rmult_assoc, Rinv_l by lra; lra).
  assert (EZ : map (draw' "z_cs") (seq 0 (nz - 1)) = map (draw "z_cs") (seq 0 (nz - 1))) by (apply map_ext; intros i; rewrite HD, HZ; ring). rewrite EZ.
  rewrite !(vec_shift draw draw' shift) by auto.
  change (log_spline_pdf ln 1500) with (log_spline_pdf (coord KLogXLogY) (grid_size KLogXLogY)). change (log_spline_pdf (fun x => x) 1000) with (log_spline_pdf (coord KLogY) (grid_size KLogY)).
  assert (V1 : valid_range KLogXLogY mmin mmax) by (split; [lra|intros; lra]). assert (V2 : valid_range KLogY (mmin / mmax) 1) by (split; [lra|discriminate]).
  assert (V3 : valid_range KLogY 0 1) by (split; [lra|discriminate]). assert (V4 : valid_range KLogY (-1) 1) by (split; [lra|discriminate]).
  assert (W3 : forall k, 1 / 10 ^ 6 <= 1 / INR (k - 3) -> 1 / 10 ^ 6 <= (coord KLogY 1 - coord KLogY 0) / INR (k - 3)) by (intros k; unfold coord; cbn [logx]; rewrite Rminus_0_r; auto).
  assert (W4 : forall k, 1 / 10 ^ 6 <= 2 / INR (k - 3) -> 1 / 10 ^ 6 <= (coord KLogY 1 - coord KLogY (-1)) / INR (k - 3)) by (intros k; unfold coord; cbn [logx]; replace (1 - -1) with 2 by ring; auto).
  rewrite !log_pdf_shift by auto. reflexivity.
Qed.
Lemma gauge keywords draw draw' shift lamb a d dVcdz v pe inj n events found nm nq na nct nz mmin mmax N :
  binds likelihood_parameters 5 keywords = true -> tables_hold pe inj n events found -> (1 <= nz)%nat -> (forall z, -1 < z -> dVcdz (Fin z) = Fin (v z)) ->
  let pop draw := drawn_population mmin mmax v (z_low events found) (z_high events found) lamb draw nm nq na nct nz in
  fit_ok a n events found N (pop draw) -> fit_ok a n events found N (pop draw') ->
  (forall site i, draw' site i = draw site i + shift site) -> shift "z_cs" = 0 ->
  forall mass mag tilt zm, example_setup dVcdz pe inj (AInt (Z.of_nat nm)) (AInt (Z.of_nat nq)) (AInt (Z.of_nat na)) (AInt (Z.of_nat nct)) (AInt (Z.of_nat nz)) (Fin mmin) (Fin mmax) = Ok (mass, mag, tilt, zm) ->
  let likelihood draw := factors (fst (snd (bspline_example_with keywords (fun s i => Fin (draw s i)) (Fin lamb) a d pe inj mass mag tilt zm nm nq na nct nz))) in
  likelihood draw' = likelihood draw.
Proof.
  intros HB HT HZ HV pop F1 F2 HD HS mass mag tilt zm ES likelihood. unfold likelihood.
  destruct (model_fit keywords draw lamb a d dVcdz v pe inj n events found nm nq na nct nz mmin mmax N HB HT HZ HV F1) as (m1 & m2 & m3 & m4 & ES1 & EF1).
  destruct (model_fit keywords draw' lamb a d dVcdz v pe inj n events found nm nq na nct nz mmin mmax N HB HT HZ HV F2) as (k1 & k2 & k3 & k4 & ES2 & EF2).
  rewrite ES in ES1, ES2. injection ES1 as <- <- <- <-. injection ES2 as <- <- <- <-. rewrite EF1, EF2. 
  assert (EW : forall b, weight (pop draw') b = weight (pop draw) b) by (intros b; apply weight_shift with (shift := shift); auto; apply F1).
  unfold pop in *. unfold log_likelihood. cbv zeta. rewrite (map_ext _ _ EW found).
  assert (EM : map (fun e => ln (mean (map (weight (drawn_population mmin mmax v (z_low events found) (z_high events found) lamb draw' nm nq na nct nz)) e))) events =
               map (fun e => ln (mean (map (weight (drawn_population mmin mmax v (z_low events found) (z_high events found) lamb draw nm nq na nct nz)) e))) events).
  { apply map_ext. intros e. rewrite (map_ext _ _ EW e). reflexivity. }
  rewrite EM. reflexivity.
Qed.

Lemma weight_reprior p c b : c <> 0 -> b_prior b <> 0 -> weight p (reprior c b) = / c * weight p b.
Proof. intros HC HB. unfold weight, reprior. cbn [b_m1 b_q b_a1 b_a2 b_c1 b_c2 b_z b_prior]. field. auto. Qed.
Lemma likelihood_reprior a n p events found N c1 c2 : fit_ok a n events found N p -> 0 < c1 -> 0 < c2 ->
  log_likelihood a p (map (map (reprior c1)) events) (map (reprior c2) found) N = log_likelihood a p events found N + INR (length events) * (ln c2 - ln c1).
Proof.
  intros ((K1 & K2 & K3 & K4 & K5 & K6 & K7 & _) & OK & HP & HE & HF & _) H1 H2. unfold log_likelihood. cbv zeta. rewrite map_length.
  assert (ZC : forall c, 0 < c -> forall l, (forall b, In b l -> 0 < b_z b /\ 0 < b_prior b) -> map (weight p) (map (reprior c) l) = map (fun w => / c * w) (map (weight p) l)).
  { intros c Hc l H. rewrite !map_map. apply map_ext_in. intros b Hb. apply weight_reprior; [lra|]. destruct (H b Hb). lra. }
  assert (SP : forall l, (forall b, In b l -> 0 < b_z b /\ 0 < b_prior b) -> (exists b, In b l /\ covered p b) -> 0 < Rlsum (map (weight p) l)).
  { intros l H (b & Hb & Cb). apply PAnalysisPPC.Rlsum_pos_ex.
    - intros x Hx. apply in_map_iff in Hx as (y & <- & Hy). destruct (H y Hy). apply weight_nonneg; auto.
    - exists (weight p b). split; [apply in_map; auto|]. destruct (H b Hb). apply weight_pos; auto. }
  assert (I2 : forall c, 0 < c -> / c <> 0) by (intros c Hc; apply Rinv_neq_0_compat; lra).
  assert (PF : forall b, In b found -> 0 < b_z b /\ 0 < b_prior b) by (intros; apply HP, in_or_app; auto).
  rewrite (ZC c2 H2 found PF), mc_mu_scal, mc_neff_scal by auto.
  assert (NP : 0 < N) by (pose proof (pos_INR (length found)); lra).
  assert (MP : 0 < mc_mu N (map (weight p) found)) by (unfold mc_mu; apply Rdiv_lt_0_compat; auto).
  rewrite ln_mult, ln_Rinv by (auto; apply Rinv_0_lt_compat; auto).
  assert (EV : Rlsum (map (fun e => ln (mean (map (weight p) e))) (map (map (reprior c1)) events)) = Rlsum (map (fun e => ln (mean (map (weight p) e))) events) - INR (length events) * ln c1).
  { clear -ZC SP HP HE H1 I2 OK. assert (HP' : forall e b, In e events -> In b e -> 0 < b_z b /\ 0 < b_prior b) by (intros e b He Hb; apply HP, in_or_app; left; apply in_concat; eauto). clear HP.
    induction events as [|e l IH]; [cbn; ring|]. cbn [map length]. rewrite S_INR. unfold Rlsum in *. cbn [fold_right]. rewrite IH by (intros; (apply HE || eapply HP'); cbn; eauto; auto).
    assert (PE : forall b, In b e -> 0 < b_z b /\ 0 < b_prior b) by (intros b Hb; apply (HP' e b); cbn; auto).
    rewrite (ZC c1 H1 e PE). pose proof (SP e PE (HE e (or_introl eq_refl))) as PS.
    assert (LP : 0 < INR (length (map (weight p) e))).
    { apply lt_0_INR. destruct e; cbn in *; [lra|lia]. }
    assert (ME : mean (map (fun w => / c1 * w) (map (weight p) e)) = / c1 * mean (map (weight p) e)).
    { unfold mean. rewrite (map_length (fun w => / c1 * w)). replace (Rlsum (map (fun w => / c1 * w) (map (weight p) e))) with (/ c1 * Rlsum (map (weight p) e)); [unfold Rdiv; ring|]. symmetry. rewrite (Rlsum_scalf (/ c1) (fun w => w)), map_id. reflexivity. }
    rewrite ME, ln_mult, ln_Rinv; auto; [ring|apply Rinv_0_lt_compat; auto|]. unfold mean. apply Rdiv_lt_0_compat; auto. }
  rewrite EV. ring.
Qed.
Lemma reprior_z c1 c2 events found : z_low (map (map (reprior c1)) events) (map (reprior c2) found) = z_low events found /\ z_high (map (map (reprior c1)) events) (map (reprior c2) found) = z_high events found.
Proof.
  assert (E : forall c l, map b_z (map (reprior c) l) = map b_z l) by (intros; rewrite map_map; reflexivity). unfold z_low, z_high. rewrite <- concat_map, !E. auto.
Qed.
Lemma fit_reprior a n p events found N c1 c2 : fit_ok a n events found N p -> 0 < c1 -> 0 < c2 -> fit_ok a n (map (map (reprior c1)) events) (map (reprior c2) found) N p.
Proof.
  intros ((K1 & K2 & K3 & K4 & K5 & K6 & K7 & K8 & K9) & OK & HP & HE & HF & HC1 & HC2) H1 H2.
  assert (ZC : forall c, 0 < c -> forall l, (forall b, In b l -> 0 < b_z b /\ 0 < b_prior b) -> map (weight p) (map (reprior c) l) = map (fun w => / c * w) (map (weight p) l)).
  { intros c Hc l H. rewrite !map_map. apply map_ext_in. intros b Hb. apply weight_reprior; [lra|]. destruct (H b Hb). lra. }
  assert (I2 : forall c, 0 < c -> / c <> 0) by (intros c Hc; apply Rinv_neq_0_compat; lra).
  assert (PF : forall b, In b found -> 0 < b_z b /\ 0 < b_prior b) by (intros; apply HP, in_or_app; auto).
  assert (PE : forall e, In e events -> forall b, In b e -> 0 < b_z b /\ 0 < b_prior b) by (intros e He b Hb; apply HP, in_or_app; left; apply in_concat; eauto).
  split; [|split; [exact OK|split; [|split; [|split; [|split]]]]].
  - unfold call_ok. rewrite !map_length. repeat match goal with |- _ /\ _ => split end; auto. destruct events; [congruence|discriminate].
  - rewrite <- concat_map. intros b Hb. apply in_app_or in Hb as [Hb|Hb]; apply in_map_iff in Hb as (b' & <- & Hb'); cbn [b_z b_prior reprior].
    + destruct (HP b') as [P1 P2]; [apply in_or_app; auto|]. split; [auto|apply Rmult_lt_0_compat; auto].
    + destruct (PF b' Hb') as [P1 P2]. split; [auto|apply Rmult_lt_0_compat; auto].
  - intros e He. apply in_map_iff in He as (e' & <- & He'). destruct (HE e' He') as (b & Hb & Cb). exists (reprior c1 b). split; [apply in_map; auto|exact Cb].
  - destruct HF as (b & Hb & Cb). exists (reprior c2 b). split; [apply in_map; auto|exact Cb].
  - rewrite map_length, (ZC c2 H2 found PF), mc_neff_scal by auto. intros E. destruct (HC1 E) as [Q1 Q2]. split; [exact Q1|]. intros r Hr. rewrite map_map in Hr. apply in_map_iff in Hr as (e & <- & He).
    rewrite (ZC c1 H1 e (PE e He)), ess_scal by auto. apply Q2. apply in_map; auto.
  - rewrite map_length, (ZC c2 H2 found PF), mc_neff_scal by auto. intros E. specialize (HC2 E). rewrite !map_map in *.
    rewrite (map_ext_in (fun e => / ess (map (weight p) (map (reprior c1) e)) - / INR n) (fun e => / ess (map (weight p) e) - / INR n)); [exact HC2|].
    intros e He. rewrite (ZC c1 H1 e (PE e He)), ess_scal by auto. reflexivity.
Qed.
Lemma prior_constants keywords draw lamb a d dVcdz v pe inj pe' inj' n events found nm nq na nct nz mmin mmax N c1 c2 :
  binds likelihood_parameters 5 keywords = true -> tables_hold pe inj n events found -> tables_hold pe' inj' n (map (map (reprior c1)) events) (map (reprior c2) found) -> 0 < c1 -> 0 < c2 ->
  (1 <= nz)%nat -> (forall z, -1 < z -> dVcdz (Fin z) = Fin (v z)) ->
  fit_ok a n events found N (drawn_population mmin mmax v (z_low events found) (z_high events found) lamb draw nm nq na nct nz) ->
  let setup pe inj := example_setup dVcdz pe inj (AInt (Z.of_nat nm)) (AInt (Z.of_nat nq)) (AInt (Z.of_nat na)) (AInt (Z.of_nat nct)) (AInt (Z.of_nat nz)) (Fin mmin) (Fin mmax) in
  let likelihood pe inj mass mag tilt zm := factors (fst (snd (bspline_example_with keywords (fun s i => Fin (draw s i)) (Fin lamb) a d pe inj mass mag tilt zm nm nq na nct nz))) in
  exists mass mag tilt zm mass' mag' tilt' zm' l, setup pe inj = Ok (mass, mag, tilt, zm) /\ setup pe' inj' = Ok (mass', mag', tilt', zm') /\
    likelihood pe inj mass mag tilt zm = (Site Factor "log_likelihood" (Scal (Fin l)) :: nil) /\
    likelihood pe' inj' mass' mag' tilt' zm' = (Site Factor "log_likelihood" (Scal (Fin (l + INR (length events) * (ln c2 - ln c1)))) :: nil).
Proof.
  intros HB HT HT' P1 P2 HZ HV F setup likelihood. unfold setup, likelihood.
  destruct (model_fit keywords draw lamb a d dVcdz v pe inj n events found nm nq na nct nz mmin mmax N HB HT HZ HV F) as (m1 & m2 & m3 & m4 & ES1 & EF1).
  pose proof (fit_reprior _ _ _ _ _ _ _ _ F P1 P2) as F'. destruct (reprior_z c1 c2 events found) as [Z1 Z2].
  pose proof (model_fit keywords draw lamb a d dVcdz v pe' inj' n (map (map (reprior c1)) events) (map (reprior c2) found) nm nq na nct nz mmin mmax N HB HT' HZ HV) as G. cbv zeta in G. rewrite Z1, Z2 in G. specialize (G F').
  destruct G as (k1 & k2 & k3 & k4 & ES2 & EF2). exists m1, m2, m3, m4, k1, k2, k3, k4. eexists. split; [exact ES1|]. split; [exact ES2|]. split; [exact EF1|].
  rewrite EF2, (likelihood_reprior a n _ events found N c1 c2 F P1 P2). reflexivity.
Qed.
