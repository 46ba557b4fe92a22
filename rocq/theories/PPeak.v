(** The likelihood of the power-law-peak population model in elementary terms. *)
From Coquelicot Require Import Coquelicot.
From Verif Require Import PDistributions PParametric PParametric2 PSetup PAnalysisCuts PAnalysisPPC PFit ArrFacts.
From Verif Require Import SpecPeak.
Open Scope R_scope.
Open Scope string_scope.
Open Scope list_scope.

(** ** one-dimensional densities *)
Lemma RInt_inv f c a b : c <> 0 -> is_RInt (fun x => c * f x) a b 1 -> RInt f a b = / c.
Proof.
  intros H I. apply is_RInt_unique. apply (is_RInt_ext (fun x => / c * (c * f x))).
  - intros x _. change (/ c * (c * f x) = f x). field; auto.
  - replace (is_RInt (fun x => / c * (c * f x)) a b (/ c)) with (is_RInt (fun x => / c * (c * f x)) a b (/ c * 1)) by (rewrite Rmult_1_r; reflexivity). apply is_RInt_scalR. exact I.
Qed.
Lemma power_in alpha lo hi x : 0 < lo < hi -> lo <= x <= hi -> power_pdf alpha lo hi x = plnorm alpha lo hi * Rpower x alpha.
Proof.
  intros H HX. unfold power_pdf. rewrite !Rleb_t by lra. cbn [andb]. pose proof (plnorm_pos alpha lo hi H).
  rewrite (RInt_inv (fun t => Rpower t alpha) (plnorm alpha lo hi)); [field; lra|lra|apply plnorm_integral; auto].
Qed.
Lemma power_out alpha lo hi x : x < lo \/ hi < x -> power_pdf alpha lo hi x = 0.
Proof. intros [H|H]; unfold power_pdf; [rewrite (Rleb_f lo x) by lra; reflexivity|rewrite (Rleb_f x hi) by lra; rewrite andb_false_r; reflexivity]. Qed.
Lemma power_value alpha lo hi x : 0 < lo < hi \/ x < lo \/ hi < x -> powerlaw_pdf (Fin x) (Fin alpha) (Fin lo) (Fin hi) (Fin 0) = Fin (power_pdf alpha lo hi x).
Proof.
  intros H. destruct (Rlt_dec x lo) as [L|L]; [|destruct (Rlt_dec hi x) as [U|U]].
  - rewrite power_out by auto. apply powerlaw_pdf_out. left. cbn. apply Rltb_true. auto.
  - rewrite power_out by auto. apply powerlaw_pdf_out. right. cbn. apply Rltb_true. auto.
  - destruct H as [H|[H|H]]; try lra. rewrite power_in by lra. apply powerlaw_pdf_in; lra.
Qed.
Lemma power_pos alpha lo hi x : 0 < lo < hi -> lo <= x <= hi -> 0 < power_pdf alpha lo hi x.
Proof. intros H HX. rewrite power_in by auto. apply Rmult_lt_0_compat; [apply plnorm_pos; auto|apply exp_pos]. Qed.
Lemma power_nonneg alpha lo hi x : 0 < lo < hi \/ x < lo \/ hi < x -> 0 <= power_pdf alpha lo hi x.
Proof.
  intros H. destruct (Rlt_dec x lo) as [L|L]; [rewrite power_out by auto; lra|]. destruct (Rlt_dec hi x) as [U|U]; [rewrite power_out by auto; lra|].
  destruct H as [H|[H|H]]; try lra. left. apply power_pos; lra.
Qed.
Lemma bell_in mu sig lo hi x : 0 < sig -> lo < hi -> lo <= x <= hi -> bell_pdf mu sig lo hi x = tn_f mu sig lo hi x.
Proof.
  intros HS H HX. unfold bell_pdf. rewrite !Rleb_t by lra. cbn [andb]. set (c := 1 / (sig * sqrt (2 * PI)) / tn_denom mu sig lo hi).
  assert (HC : 0 < c). { pose proof (tn_f_pos mu sig lo hi x HS H) as P. unfold tn_f in P. fold c in P. pose proof (exp_pos (- (x - mu) ^ 2 / (2 * sig ^ 2))). nra. }
  rewrite (RInt_inv (bell mu sig) c); [unfold tn_f, bell; fold c; field; lra|lra|].
  eapply is_RInt_ext; [|apply (tn_integral mu sig lo hi HS H)]. intros y _. unfold tn_f, bell. fold c. apply Rmult_comm.
Qed.
Lemma bell_out mu sig lo hi x : x < lo \/ hi < x -> bell_pdf mu sig lo hi x = 0.
Proof. intros [H|H]; unfold bell_pdf; [rewrite (Rleb_f lo x) by lra; reflexivity|rewrite (Rleb_f x hi) by lra; rewrite andb_false_r; reflexivity]. Qed.
Lemma bell_value mu sig lo hi x : 0 < sig -> lo < hi -> truncnorm_pdf (Fin x) (Fin mu) (Fin sig) (Fin lo) (Fin hi) false = Fin (bell_pdf mu sig lo hi x).
Proof.
  intros HS H. destruct (Rlt_dec x lo) as [L|L]; [|destruct (Rlt_dec hi x) as [U|U]].
  - rewrite bell_out by auto. apply truncnorm_out. left. cbn. apply Rltb_true. auto.
  - rewrite bell_out by auto. apply truncnorm_out. right. cbn. apply Rltb_true. auto.
  - rewrite bell_in by lra. apply truncnorm_pdf_in; lra.
Qed.
Lemma bell_pos mu sig lo hi x : 0 < sig -> lo < hi -> lo <= x <= hi -> 0 < bell_pdf mu sig lo hi x.
Proof. intros. rewrite bell_in by auto. apply tn_f_pos; auto. Qed.
Lemma bell_nonneg mu sig lo hi x : 0 < sig -> lo < hi -> 0 <= bell_pdf mu sig lo hi x.
Proof.
  intros HS H. destruct (Rlt_dec x lo) as [L|L]; [rewrite bell_out by auto; lra|]. destruct (Rlt_dec hi x) as [U|U]; [rewrite bell_out by auto; lra|]. left. apply bell_pos; lra.
Qed.
Lemma shape_value betaln a b B x : 0 < B -> betaln (Fin a) (Fin b) = Fin (ln B) -> 0 < x < 1 -> betadist betaln (Fin x) (Fin a) (Fin b) (Fin 1) (Fin 0) = Fin (shape_pdf a b B x).
Proof.
  intros HB E HX. rewrite (betadist_in betaln x a b 1 (ln B)) by auto. apply (f_equal Fin). unfold shape_pdf. rewrite exp_ln by auto. unfold Rpower at 3. rewrite ln_1, Rmult_0_r, exp_0, Rmult_1_l. reflexivity.
Qed.
Lemma shape_pos a b B x : 0 < B -> 0 < shape_pdf a b B x.
Proof. intros H. unfold shape_pdf. apply Rdiv_lt_0_compat; auto. apply Rmult_lt_0_compat; apply exp_pos. Qed.

(** ** redshift *)
Lemma k_z_value dVcdz k m z : 0 < k_zlo k < k_zhi k -> (forall z, 0 < z -> 0 < k_vol k z) -> (forall z, -1 < z -> dVcdz (Fin z) = Fin (k_vol k z)) ->
  m = {| zm_min := Fin (k_zlo k); zm_max := Fin (k_zhi k); zm_zs := nlinspace (Fin (k_zlo k)) (Fin (k_zhi k)) 1000; zm_dV := map dVcdz (nlinspace (Fin (k_zlo k)) (Fin (k_zhi k)) 1000) |} ->
  0 < z -> redshift_call m (Fin z) (dVcdz (Fin z)) (Fin (k_lamb k)) = Fin (k_z k z).
Proof.
  intros H HV HD Hm HZ.
  assert (N : redshift_normalization m (Fin (k_lamb k)) = Fin (trapezoid (rlinspace (k_zlo k) (k_zhi k) 1000) (map (fun z => k_vol k z * Rpower (1 + z) (k_lamb k - 1)) (rlinspace (k_zlo k) (k_zhi k) 1000)))).
  { apply (redshift_norm_fin dVcdz (k_vol k) (k_zlo k) (k_zhi k) (k_lamb k) m); auto; [lra|intros; apply HD; lra]. }
  assert (P : 0 < trapezoid (rlinspace (k_zlo k) (k_zhi k) 1000) (map (fun z => k_vol k z * Rpower (1 + z) (k_lamb k - 1)) (rlinspace (k_zlo k) (k_zhi k) 1000))).
  { apply (redshift_norm_pos (k_vol k) (k_zlo k) (k_zhi k) (k_lamb k)); [lra| |]; intros y Hy; [left|]; apply HV; lra. }
  destruct (Rle_dec z (k_zhi k)) as [L|L].
  - unfold redshift_call, k_z, scaled_on. rewrite N, HD by lra. rewrite Hm. cbn [zm_max nle]. rewrite !Rleb_t by lra. cbn [nwhere]. rewrite redshift_prob_fin by lra. rewrite ndiv_fin by lra. reflexivity.
  - unfold k_z. rewrite Rleb_f by lra. apply (redshift_above dVcdz (k_zlo k) (k_zhi k) (k_lamb k) m Hm). lra.
Qed.
Lemma k_z_pos k z : 0 < k_zlo k < k_zhi k -> (forall z, 0 < z -> 0 < k_vol k z) -> 0 < z <= k_zhi k -> 0 < k_z k z.
Proof.
  intros H HV HZ. unfold k_z. rewrite Rleb_t by lra. assert (P : forall y, 0 < y -> 0 < k_vol k y * Rpower (1 + y) (k_lamb k - 1)) by (intros y Hy; apply Rmult_lt_0_compat; [auto|apply exp_pos]).
  apply scaled_pos; [apply rlinspace_increasing; lra|rewrite rlinspace_length; lia| |apply P; lra]. intros y Hy. apply rlinspace_range in Hy; [|lra]. apply P. lra.
Qed.
Lemma k_z_nonneg k z : 0 < k_zlo k < k_zhi k -> (forall z, 0 < z -> 0 < k_vol k z) -> 0 < z -> 0 <= k_z k z.
Proof. intros H HV HZ. destruct (Rle_dec z (k_zhi k)) as [L|L]; [left; apply k_z_pos; auto|]. unfold k_z. rewrite Rleb_f by lra. lra. Qed.

(** ** the weight of one sample *)
Lemma ratio_range mmin m q : 0 < mmin -> 0 < m -> ~ (m = mmin /\ q = 1) -> 0 < mmin / m < 1 \/ q < mmin / m \/ 1 < q.
Proof.
  intros H HM HN. assert (E : mmin / m * m = mmin) by (field; lra). assert (0 < mmin / m) by (apply Rdiv_lt_0_compat; auto).
  destruct (Rlt_dec mmin m) as [L|L]; [left; split; auto; nra|right]. assert (1 <= mmin / m) by nra.
  destruct (Rlt_dec q (mmin / m)) as [Q|Q]; auto. destruct (Rlt_dec 1 q) as [Q'|Q']; auto. exfalso. apply HN. assert (q = 1) by lra. split; auto. nra.
Qed.
Lemma peak_weight_value betaln dVcdz draw mmin mmax v zl zh B1 B2 m b : let k := drawn_peak mmin mmax v zl zh draw B1 B2 in
  peak_ok k -> physical k b -> (forall z, -1 < z -> dVcdz (Fin z) = Fin (v z)) ->
  betaln (Fin (k_mu1 k * k_v1 k)) (Fin ((1 - k_mu1 k) * k_v1 k)) = Fin (ln B1) -> betaln (Fin (k_mu2 k * k_v2 k)) (Fin ((1 - k_mu2 k) * k_v2 k)) = Fin (ln B2) ->
  m = {| zm_min := Fin zl; zm_max := Fin zh; zm_zs := nlinspace (Fin zl) (Fin zh) 1000; zm_dV := map dVcdz (nlinspace (Fin zl) (Fin zh) 1000) |} ->
  get_weight betaln dVcdz (fun s => Fin (draw s)) m (Fin mmin) (Fin mmax) (row b) = Fin (peak_pdf_over_prior k b).
Proof.
  intros k (M & S & L & U1 & W1 & U2 & W2 & X1 & X2 & S1 & S2 & Z & V & I1 & I2) (P1 & P2 & P3 & P4 & P5 & P6 & P7 & P8) HD E1 E2 Hm. pose proof (proj2 I1) as Q1. pose proof (proj2 I2) as Q2. clear I1 I2.
  pose proof (k_z_value dVcdz k m (b_z b) Z V HD Hm P6) as HZ.
  unfold k, drawn_peak in *. cbn [k_mmin k_mmax k_alpha k_beta k_mu k_sig k_lam k_mu1 k_v1 k_B1 k_mu2 k_v2 k_B2 k_x1 k_x2 k_s1 k_s2 k_lamb k_vol k_zlo k_zhi] in *.
  unfold row, columns. cbn [map snd]. unfold get_weight.
  erewrite peak_value; [| auto| auto| auto| auto| auto| lra| apply power_value| apply power_value| apply bell_value| apply (shape_value _ _ _ B1)| apply (shape_value _ _ _ B2)| apply bell_value| apply bell_value| exact HZ]; auto; try lra.
  - apply (f_equal Fin). unfold peak_pdf_over_prior, k_mass, k_ratio, k_tilt. cbn [k_mmin k_mmax k_alpha k_beta k_mu k_sig k_lam k_mu1 k_v1 k_B1 k_mu2 k_v2 k_B2 k_x1 k_x2 k_s1 k_s2 k_lamb k_vol k_zlo k_zhi]. field. lra.
  - apply ratio_range; auto. lra.
Qed.
Lemma peak_nonneg k b : peak_ok k -> physical k b -> 0 <= peak_pdf_over_prior k b.
Proof.
  intros (M & S & L & U1 & W1 & U2 & W2 & X1 & X2 & S1 & S2 & Z & V & I1 & I2) (P1 & P2 & P3 & P4 & P5 & P6 & P7 & P8). unfold peak_pdf_over_prior.
  assert (T : forall x s c, 0 <= x <= 1 -> 0 < s -> 0 <= k_tilt x s c). { intros x s c Hx Hs. unfold k_tilt. pose proof (bell_nonneg 1 s (-1) 1 c Hs ltac:(lra)). nra. }
  apply Rmult_le_pos; [|left; apply Rinv_0_lt_compat; auto]. apply Rmult_le_pos; [|apply k_z_nonneg; auto].
  apply Rmult_le_pos; [apply Rmult_le_pos; apply Rmult_le_pos|apply Rmult_le_pos; apply T; auto].
  - unfold k_mass. assert (0 <= power_pdf (k_alpha k) (k_mmin k) (k_mmax k) (b_m1 b)) by (apply power_nonneg; lra). assert (0 <= bell_pdf (k_mu k) (k_sig k) (k_mmin k) (k_mmax k) (b_m1 b)) by (apply bell_nonneg; lra). nra.
  - apply power_nonneg. apply ratio_range; auto. lra.
  - left. apply shape_pos, I1.
  - left. apply shape_pos, I2.
Qed.
Lemma peak_pos k b : peak_ok k -> physical k b -> peak_covers k b -> 0 < peak_pdf_over_prior k b.
Proof.
  intros (M & S & L & U1 & W1 & U2 & W2 & X1 & X2 & S1 & S2 & Z & V & I1 & I2) (P1 & P2 & P3 & P4 & P5 & P6 & P7 & P8) (C1 & C2 & C3). unfold peak_pdf_over_prior.
  assert (T : forall x s c, 0 <= x <= 1 -> 0 < s -> -1 <= c <= 1 -> 0 < k_tilt x s c).
  { intros x s c Hx Hs Hc. unfold k_tilt. pose proof (bell_pos 1 s (-1) 1 c Hs ltac:(lra) Hc). destruct (Req_dec x 0) as [-> |N]; [lra|]. assert (0 < x) by lra. nra. }
  apply Rmult_lt_0_compat; [|apply Rinv_0_lt_compat; auto]. apply Rmult_lt_0_compat; [|apply k_z_pos; auto; lra].
  apply Rmult_lt_0_compat; [apply Rmult_lt_0_compat; apply Rmult_lt_0_compat|apply Rmult_lt_0_compat; apply T; auto].
  - unfold k_mass. assert (0 < power_pdf (k_alpha k) (k_mmin k) (k_mmax k) (b_m1 b)) by (apply power_pos; lra). assert (0 < bell_pdf (k_mu k) (k_sig k) (k_mmin k) (k_mmax k) (b_m1 b)) by (apply bell_pos; lra).
    destruct (Req_dec (k_lam k) 0) as [-> |N]; [lra|]. assert (0 < k_lam k) by lra. nra.
  - apply power_pos; auto. destruct (ratio_range (k_mmin k) (b_m1 b) (b_q b)) as [H|[H|H]]; auto; lra.
  - apply shape_pos, I1.
  - apply shape_pos, I2.
Qed.

(** ** from the tables to the likelihood *)
Lemma likelihood_of_weights a d n events found N w : call_ok a n events found N -> Forall (fun e => length e = n) events ->
  (forall b, In b (concat events ++ found) -> 0 <= w b) -> (forall e, In e events -> exists b, In b e /\ 0 < w b) -> (exists b, In b found /\ 0 < w b) -> cuts_pass a n w events found N ->
  factors (fst (hierarchical_likelihood a d (PEOne (Arr2 n (map (map (fun b => Fin (w b))) events))) (map (fun b => Fin (w b)) found))) =
  (Site Factor "log_likelihood" (Scal (Fin (log_likelihood_of a w events found N))) :: nil).
Proof.
  intros (K1 & K2 & K3 & K4 & K5 & K6 & K7 & K8 & K9) HN HP HE HF [HC1 HC2]. unfold log_likelihood_of. cbv zeta. rewrite <- K5 in *.
  rewrite <- (map_map (map w) (fun r => ln (mean r))).
  assert (ER : map (map (fun b => Fin (w b))) events = map (enc false) (map (map w) events)).
  { rewrite map_map. apply map_ext. intros e. unfold enc. rewrite map_map. reflexivity. }
  assert (EF : map (fun b => Fin (w b)) found = enc false (map w found)) by (unfold enc; rewrite map_map; reflexivity).
  rewrite ER, EF. set (rows := map (map w) events) in *. set (ws := map w found) in *.
  pose proof (hl_value a d n N rows ws) as HLV. rewrite K2 in HLV.
  assert (WN : forall l, (forall b, In b l -> 0 <= w b) -> nonneg_list (map w l)).
  { intros l H. apply Forall_forall. intros x Hx. apply in_map_iff in Hx as (b & <- & Hb). auto. }
  assert (SP : forall l, (forall b, In b l -> 0 <= w b) -> (exists b, In b l /\ 0 < w b) -> 0 < Rlsum (map w l)).
  { intros l H (b & Hb & Cb). apply PAnalysisPPC.Rlsum_pos_ex; [pose proof (WN l H) as W; intros x Hx; unfold nonneg_list in W; rewrite Forall_forall in W; auto|]. exists (w b). split; [apply in_map; auto|auto]. }
  apply HLV; auto. unfold value_hyps, good_rows. repeat match goal with |- _ /\ _ => split end; auto.
  - apply Forall_forall. intros r Hr. unfold rows in Hr. apply in_map_iff in Hr as (e & <- & He). split; [rewrite map_length; rewrite Forall_forall in HN; auto|].
    assert (H : forall b, In b e -> 0 <= w b) by (intros b Hb; apply HP, in_or_app; left; apply in_concat; eauto). split; [apply WN; auto|apply SP; auto].
  - unfold rows. destruct events; [congruence|discriminate].
  - unfold rows. rewrite map_length. auto.
  - apply WN. intros; apply HP, in_or_app; auto.
  - apply SP; auto. intros; apply HP, in_or_app; auto.
  - unfold ws. rewrite map_length. auto.
Qed.
Lemma by_index {A B} (f : A -> B) (l : list A) d : map f l = map (fun j => f (nth j l d)) (seq 0 (length l)).
Proof. induction l as [|x l IH]; cbn; auto. f_equal. rewrite <- seq_shift, map_map. exact IH. Qed.
Lemma elementwise_rows f l : elementwise f (map (fun cf : string * (binary -> R) => map (fun b => Fin (snd cf b)) l) columns) = map (fun b => f (row b)) l.
Proof.
  unfold elementwise. assert (L : length (hd [] (map (fun cf : string * (binary -> R) => map (fun b => Fin (snd cf b)) l) columns)) = length l) by (cbn; apply map_length). rewrite L.
  set (b0 := SpecFit.Binary 0 0 0 0 0 0 0 0). rewrite (by_index (fun b => f (row b)) l b0). apply map_ext_in. intros j Hj. apply in_seq in Hj. f_equal. unfold row. rewrite map_map. apply map_ext. intros cf.
  rewrite (nth_indep _ NaN (Fin (snd cf b0))) by (rewrite map_length; lia). apply (map_nth (fun b => Fin (snd cf b))).
Qed.
Lemma elementwise2_rows f n events : elementwise2 f (map (fun cf : string * (binary -> R) => Arr2 n (map (map (fun b => Fin (snd cf b))) events)) columns) = Arr2 n (map (map (fun b => f (row b))) events).
Proof.
  unfold elementwise2. assert (E : hd (Arr2 0 []) (map (fun cf : string * (binary -> R) => Arr2 n (map (map (fun b => Fin (snd cf b))) events)) columns) = Arr2 n (map (map (fun b => Fin (b_m1 b))) events)) by reflexivity.
  rewrite E. cbn [a_cols a_rows]. f_equal. rewrite map_length. rewrite (by_index (map (fun b => f (row b))) events []). apply map_ext_in. intros i Hi. apply in_seq in Hi.
  rewrite <- elementwise_rows. f_equal. rewrite map_map. apply map_ext. intros cf. cbn [a_rows]. change (@nil num) with (map (fun b => Fin (snd cf b)) []). apply (map_nth (map (fun b => Fin (snd cf b)))).
Qed.
Lemma read_all {A} (d : dict A) (g : string * (binary -> R) -> A) cs : (forall c f, In (c, f) cs -> assoc c d = Ok (g (c, f))) -> read_columns d (map fst cs) = Ok (map g cs).
Proof.
  induction cs as [|[c f] cs IH]; intros H; cbn [map fst read_columns]; auto. rewrite (H c f) by (cbn; auto). cbn [rbind]. rewrite IH by (intros; apply H; cbn; auto). reflexivity.
Qed.
Lemma peak_setup_value dVcdz pe inj n events found : tables_hold pe inj n events found -> (0 < n)%nat -> events <> [] -> found <> [] ->
  peak_setup dVcdz pe inj = Ok {| zm_min := Fin (z_low events found); zm_max := Fin (z_high events found); zm_zs := nlinspace (Fin (z_low events found)) (Fin (z_high events found)) 1000;
    zm_dV := map dVcdz (nlinspace (Fin (z_low events found)) (Fin (z_high events found)) 1000) |}.
Proof.
  intros [HN HT] K3 K4 HF. set (zp := map b_z (concat events)). set (zi := map b_z found).
  assert (NP : exists p0 zs, zp = p0 :: zs).
  { destruct events as [|e es]; [congruence|]. destruct e as [|b e]; [inversion_clear HN as [|? ? L _]; cbn in L; lia|]. unfold zp. cbn. eauto. }
  assert (NI : exists i0 is, zi = i0 :: is) by (destruct found as [|b' l]; [congruence|]; unfold zi; cbn; eauto).
  destruct NP as (p0 & zs & EP). destruct NI as (i0 & is & EI).
  assert (ZL : z_low events found = grid_lo p0 zs i0 is) by (unfold z_low; fold zp zi; rewrite EP, EI; reflexivity).
  assert (ZH : z_high events found = grid_hi p0 zs i0 is) by (unfold z_high; fold zp zi; rewrite EP, EI; reflexivity).
  destruct (HT "redshift" b_z ltac:(cbn; tauto)) as [R1 R2].
  assert (FZ : flat (Arr2 n (map (map (fun b => Fin (b_z b))) events)) = Fin p0 :: map Fin zs).
  { unfold flat. cbn [a_rows]. rewrite <- concat_map, <- (map_map b_z Fin). fold zp. rewrite EP. reflexivity. }
  assert (FI : map (fun b => Fin (b_z b)) found = Fin i0 :: map Fin is) by (rewrite <- (map_map b_z Fin); fold zi; rewrite EI; reflexivity).
  unfold peak_setup. rewrite R1, R2. cbn [rbind]. rewrite FZ, FI. apply (f_equal Ok).
  rewrite redshift_init_fin. change (Rmax (fold_left Rmin zs p0) (fold_left Rmin is i0)) with (grid_lo p0 zs i0 is). change (Rmin (fold_left Rmax zs p0) (fold_left Rmax is i0)) with (grid_hi p0 zs i0 is). rewrite <- ZL, <- ZH. reflexivity.
Qed.
Lemma peak_fit keywords betaln dVcdz v draw a d pe inj n events found mmin mmax N B1 B2 :
  binds likelihood_parameters 5 keywords = true -> tables_hold pe inj n events found -> (forall z, -1 < z -> dVcdz (Fin z) = Fin (v z)) ->
  let k := drawn_peak mmin mmax v (z_low events found) (z_high events found) draw B1 B2 in
  betaln (Fin (k_mu1 k * k_v1 k)) (Fin ((1 - k_mu1 k) * k_v1 k)) = Fin (ln B1) -> betaln (Fin (k_mu2 k * k_v2 k)) (Fin ((1 - k_mu2 k) * k_v2 k)) = Fin (ln B2) ->
  peak_fit_ok a n events found N k ->
  exists zm, peak_setup dVcdz pe inj = Ok zm /\
    factors (fst (peak_example_with betaln dVcdz (fun s => Fin (draw s)) zm (Fin mmin) (Fin mmax) keywords a d pe inj)) =
    (Site Factor "log_likelihood" (Scal (Fin (log_likelihood_of a (peak_pdf_over_prior k) events found N))) :: nil).
Proof.
  intros HB [HN HT] HD k E1 E2 (HC & OK & HP & HE & HF & HCU).
  eexists. split; [apply (peak_setup_value dVcdz pe inj n events found); [split; auto|apply HC|apply HC|destruct HF as (b & HB' & _); intros ->; destruct HB']|].
  set (zm := {| zm_min := _ |}).
  unfold peak_example_with. change peak_columns with (map fst columns).
  rewrite (read_all pe (fun cf => Arr2 n (map (map (fun b => Fin (snd cf b))) events)) columns) by (intros c f Hf; apply HT; auto).
  rewrite (read_all inj (fun cf => map (fun b => Fin (snd cf b)) found) columns) by (intros c f Hf; apply HT; auto).
  rewrite elementwise2_rows, elementwise_rows.
  assert (W : forall b, In b (concat events ++ found) -> get_weight betaln dVcdz (fun s => Fin (draw s)) zm (Fin mmin) (Fin mmax) (row b) = Fin (peak_pdf_over_prior k b)).
  { intros b Hb. apply (peak_weight_value betaln dVcdz draw mmin mmax v (z_low events found) (z_high events found) B1 B2 zm b); auto. }
  rewrite (map_ext_in _ (fun b => Fin (peak_pdf_over_prior k b)) found) by (intros; apply W, in_or_app; auto).
  rewrite (map_ext_in (map (fun b => get_weight betaln dVcdz (fun s => Fin (draw s)) zm (Fin mmin) (Fin mmax) (row b))) (map (fun b => Fin (peak_pdf_over_prior k b))) events)
    by (intros e He; apply map_ext_in; intros b Hb; apply W, in_or_app; left; apply in_concat; eauto).
  pose proof (likelihood_of_weights a d n events found N (peak_pdf_over_prior k) HC HN) as LW.
  assert (G : forall (x : M (option num)) l, factors (fst x) = l -> factors (fst (mbind (peak_sites (fun s => Fin (draw s)), Ok tt) (fun _ => x))) = l).
  { intros [l r] l' <-. unfold mbind. cbn [fst]. unfold factors. rewrite filter_app. reflexivity. }
  apply G. unfold call_likelihood. rewrite HB. apply LW; auto.
  - intros b Hb. apply peak_nonneg; auto.
  - intros e He. destruct (HE e He) as (b & Hb & Cb). exists b. split; auto. apply peak_pos; auto. apply HP, in_or_app. left. apply in_concat. eauto.
  - destruct HF as (b & Hb & Cb). exists b. split; auto. apply peak_pos; auto. apply HP, in_or_app. auto.
Qed.
(** a non-spinning first component *)
Lemma zero_spin betaln dVcdz draw mmin mmax v zl zh B1 B2 m b : let k := drawn_peak mmin mmax v zl zh draw B1 B2 in
  peak_ok k -> physical k (SpecFit.Binary (b_m1 b) (b_q b) (1/2) (b_a2 b) (b_c1 b) (b_c2 b) (b_z b) (b_prior b)) -> peak_covers k b -> b_a1 b = 0 -> k_mu1 k * k_v1 k < 1 -> (forall z, -1 < z -> dVcdz (Fin z) = Fin (v z)) ->
  betaln (Fin (k_mu1 k * k_v1 k)) (Fin ((1 - k_mu1 k) * k_v1 k)) = Fin (ln B1) -> betaln (Fin (k_mu2 k * k_v2 k)) (Fin ((1 - k_mu2 k) * k_v2 k)) = Fin (ln B2) ->
  m = {| zm_min := Fin zl; zm_max := Fin zh; zm_zs := nlinspace (Fin zl) (Fin zh) 1000; zm_dV := map dVcdz (nlinspace (Fin zl) (Fin zh) 1000) |} ->
  get_weight betaln dVcdz (fun s => Fin (draw s)) m (Fin mmin) (Fin mmax) (row b) = PInf.
Proof.
  intros k OK PH CV A0 HS HD E1 E2 Hm. pose proof (peak_pos k _ OK PH CV) as PP. revert OK PH CV.
  intros (M & S & L & U1 & W1 & U2 & W2 & X1 & X2 & S1 & S2 & Z & V & I1 & I2) (P1 & P2 & P3 & P4 & P5 & P6 & P7 & P8) (C1 & C2 & C3). pose proof (proj2 I1) as Q1. pose proof (proj2 I2) as Q2. clear I1 I2.
  cbn [b_m1 b_q b_a1 b_a2 b_c1 b_c2 b_z b_prior] in *.
  pose proof (k_z_value dVcdz k m (b_z b) Z V HD Hm P6) as HZ. pose proof (k_z_pos k (b_z b) Z V ltac:(lra)) as PZ.
  unfold k, drawn_peak in *. cbn [k_mmin k_mmax k_alpha k_beta k_mu k_sig k_lam k_mu1 k_v1 k_B1 k_mu2 k_v2 k_B2 k_x1 k_x2 k_s1 k_s2 k_lamb k_vol k_zlo k_zhi] in *.
  unfold row, columns. cbn [map snd]. unfold get_weight, peak_weight, peak_shapes. rewrite !nsub_fin, !nmul_fin. rewrite A0.
  destruct (ratio_range mmin (b_m1 b) (b_q b) ltac:(lra) P1 P8) as [RR|RR]; [|lra].
  erewrite plpeak_ratio_value; [|auto|apply power_value; lra|apply power_value; lra|apply bell_value; lra].
  erewrite independent_tilt_value; [|auto|auto|auto|auto|apply bell_value; lra|apply bell_value; lra].
  unfold independent_spin_magnitude_beta_dist. rewrite (betadist_inf_left betaln _ _ 1 (ln B1)) by (auto; lra). rewrite (shape_value betaln _ _ B2) by auto. rewrite HZ.
  pose proof (shape_pos (draw "mu_a2" * draw "var_a2") ((1 - draw "mu_a2") * draw "var_a2") B2 (b_a2 b) Q2) as PS.
  assert (PM : forall x, 0 < x -> nmul (Fin x) PInf = PInf /\ nmul PInf (Fin x) = PInf) by (intros x Hx; cbn; rewrite sinf_pos by auto; auto).
  assert (T : forall x s c, 0 <= x <= 1 -> 0 < s -> -1 <= c <= 1 -> 0 < (1 - x) * (1/2) + x * bell_pdf 1 s (-1) 1 c).
  { intros x s c Hx Hs Hc. pose proof (bell_pos 1 s (-1) 1 c Hs ltac:(lra) Hc). destruct (Req_dec x 0) as [-> |N]; [lra|]. assert (0 < x) by lra. nra. }
  rewrite (proj2 (PM _ PS)). rewrite (fun H => proj1 (PM _ H)).
  - rewrite (fun H => proj2 (PM _ H)) by (apply Rmult_lt_0_compat; apply T; auto). rewrite (fun H => proj2 (PM _ H)) by exact PZ. cbn. rewrite Rltb_f by lra. reflexivity.
  - apply Rmult_lt_0_compat; [apply power_pos; lra|]. pose proof (power_pos (draw "alpha") mmin mmax (b_m1 b) ltac:(lra) ltac:(lra)). pose proof (bell_pos (draw "mu_peak") (draw "sig_peak") mmin mmax (b_m1 b) S ltac:(lra) ltac:(lra)).
    destruct (Req_dec (draw "lambda_m") 0) as [-> |N]; [lra|]. assert (0 < draw "lambda_m") by lra. nra.
Qed.
Lemma zero_spin_weight betaln dVcdz v draw pe inj n events found mmin mmax B1 B2 b : tables_hold pe inj n events found -> (0 < n)%nat -> events <> [] -> found <> [] -> (forall z, -1 < z -> dVcdz (Fin z) = Fin (v z)) ->
  let k := drawn_peak mmin mmax v (z_low events found) (z_high events found) draw B1 B2 in
  betaln (Fin (k_mu1 k * k_v1 k)) (Fin ((1 - k_mu1 k) * k_v1 k)) = Fin (ln B1) -> betaln (Fin (k_mu2 k * k_v2 k)) (Fin ((1 - k_mu2 k) * k_v2 k)) = Fin (ln B2) ->
  peak_ok k -> k_mu1 k * k_v1 k < 1 -> physical k (with_spin (1/2) b) -> peak_covers k b ->
  exists zm, peak_setup dVcdz pe inj = Ok zm /\ get_weight betaln dVcdz (fun s => Fin (draw s)) zm (Fin mmin) (Fin mmax) (row (with_spin 0 b)) = PInf.
Proof.
  intros HT H1 H2 H3 HD k E1 E2 OK HS HP HC. eexists. split; [apply (peak_setup_value dVcdz pe inj n events found); auto|].
  apply (zero_spin betaln dVcdz draw mmin mmax v (z_low events found) (z_high events found) B1 B2); auto.
Qed.
Lemma recorded_shapes keywords betaln dVcdz draw zm a d pe inj mmin mmax mu v alpha beta : In (mu, v, alpha, beta) [("mu_a1", "var_a1", "alpha_a1", "beta_a1"); ("mu_a2", "var_a2", "alpha_a2", "beta_a2")] ->
  let trace := fst (peak_example_with betaln dVcdz (fun s => Fin (draw s)) zm mmin mmax keywords a d pe inj) in
  In (Site Sample mu (Scal (Fin (draw mu)))) trace /\ In (Site Sample v (Scal (Fin (draw v)))) trace /\
  In (Site Deterministic alpha (Scal (Fin (draw mu * draw v)))) trace /\ In (Site Deterministic beta (Scal (Fin ((1 - draw mu) * draw v)))) trace.
Proof.
  intros H trace.
  assert (P : forall s, In s (peak_sites (fun s => Fin (draw s))) -> In s trace).
  { intros s Hs. unfold trace, peak_example_with, mbind. match goal with |- In _ (fst (let '(_, _) := ?x in _)) => destruct x as [s' r'] end. apply in_or_app. left. exact Hs. }
  destruct H as [H|[H|[]]]; injection H as <- <- <- <-; repeat split; apply P; cbn; tauto.
Qed.
