(** Proofs about the set-up helpers (C106) and the example models (C107). *)
From Verif Require Import PBSplines PBSplineMake PBSplineCode PBSplineProj PBSplineGauge PSplinePert PSplineValue PConstruct.
From Verif Require Import PConversions PBetaMoments.
From Verif Require Import SpecSetup.
Open Scope R_scope.
Open Scope string_scope.
Open Scope list_scope.

Lemma concat_len {A} n (rows : list (list A)) : Forall (fun r => length r = n) rows -> length (concat rows) = (length rows * n)%nat.
Proof. induction 1; cbn; auto. rewrite app_length, IHForall, H. lia. Qed.
Lemma concat_nth {A} n (rows : list (list A)) i j d : Forall (fun r => length r = n) rows -> (i < length rows)%nat -> (j < n)%nat ->
  nth (i * n + j) (concat rows) d = nth j (nth i rows []) d.
Proof.
  intros F. revert i. induction F as [|r rows L F IH]; intros i Hi Hj; cbn in *; [lia|]. destruct i as [|i]; cbn [nth Nat.mul].
  - rewrite app_nth1 by lia. reflexivity.
  - rewrite app_nth2 by lia. rewrite <- (IH i) by lia. f_equal. lia.
Qed.

Lemma table_flat E n pe c : has_table E n pe c -> exists a, assoc c pe = Ok a /\ length (flat a) = (E * n)%nat /\
  forall i j, (i < E)%nat -> (j < n)%nat -> nth (i * n + j) (flat a) NaN = at2 pe c i j.
Proof.
  intros (a & EA & _ & L & F). exists a. split; auto. unfold flat. rewrite (concat_len n), L by auto. split; auto.
  intros i j Hi Hj. unfold at2. rewrite EA. apply concat_nth; auto. lia.
Qed.
Lemma column_list k inj c : has_column k inj c -> exists l, assoc c inj = Ok l /\ length l = k /\ forall j, nth j l NaN = at1 inj c j.
Proof. intros (l & EL & L). exists l. unfold at1. rewrite EL. auto. Qed.

(** a table entry through the flattened sample list *)
Lemma data_samples pe inj E n k c : has_data pe inj E n k c -> exists a l, assoc c pe = Ok a /\ assoc c inj = Ok l /\ length (flat a) = (E * n)%nat /\ length l = k /\
  (forall i j, (i < E)%nat -> (j < n)%nat -> nth (i * n + j) (flat a) NaN = at2 pe c i j) /\ (forall j, nth j l NaN = at1 inj c j).
Proof. intros [HT HC]. destruct (table_flat _ _ _ _ HT) as (a & A1 & A2 & A3). destruct (column_list _ _ _ HC) as (l & L1 & L2 & L3). exists a, l. auto 10. Qed.

Lemma make_m1d_ok s lo hi o n x xi : valid_range (dflt s (o_basis o)) lo hi -> (4 <= n)%nat -> o_range o = None -> o_degree o = None -> o_knots o = None -> o_interior o = None ->
  exists m, make_m1d s (Fin lo, Fin hi) o n x xi = Ok m.
Proof.
  intros VR Hn E1 E2 E3 E4. unfold make_m1d. rewrite E1, E2, E3, E4. cbn [dflt fst snd].
  match goal with |- context [make_spline ?s' ?n' ?k' None None _ _ ?b] => destruct (make_default s' n' k' lo hi b ltac:(lia) VR) as (sp & -> & _) end.
  cbn [rbind]. eauto.
Qed.
Lemma count_ok n : as_count (AInt (Z.of_nat n)) = Ok n.
Proof. unfold as_count. destruct (Z.of_nat n <? 0)%Z eqn:E; [apply Z.ltb_lt in E; lia|]. rewrite Nat2Z.id. reflexivity. Qed.

(** lift a statement about the flattened samples to the tables *)
Lemma idx_lt E n i j : (i < E)%nat -> (j < n)%nat -> (i * n + j < E * n)%nat.
Proof. nia. Qed.

Lemma mass_setup pe inj E n k nm nq mmin mmax : has_data pe inj E n k "mass_1" -> has_data pe inj E n k "mass_ratio" -> 0 < mmin < mmax -> (4 <= nm)%nat -> (4 <= nq)%nat ->
  exists ms, setup_bspline_mass_models pe inj (AInt (Z.of_nat nm)) (AInt (Z.of_nat nq)) (Fin mmin) (Fin mmax) = Ok ms /\
  forall mass_cs q_cs, length mass_cs = nm -> length q_cs = nq ->
  exists P I, primary_ratio_call ms mass_cs q_cs true = Ok P /\ primary_ratio_call ms mass_cs q_cs false = Ok I /\
    each_sample pe inj E n k P I (mass_density mmin mmax nm nq mass_cs q_cs).
Proof.
  intros D1 D2 HM H1 H2. destruct (data_samples _ _ _ _ _ _ D1) as (m1 & i1 & A1 & B1 & L1 & K1 & V1 & W1). destruct (data_samples _ _ _ _ _ _ D2) as (q & iq & A2 & B2 & L2 & K2 & V2 & W2).
  unfold setup_bspline_mass_models. rewrite A1, B1, A2, B2. cbn [rbind]. rewrite !count_ok. cbn [rbind].
  assert (ED : ndiv (Fin mmin) (Fin mmax) = Fin (mmin / mmax)) by (cbn; rewrite Reqb_f by lra; reflexivity).
  assert (HR : 0 < mmin / mmax < 1) by (split; [apply Rdiv_lt_0_compat; lra|apply Rlt_div_l; lra]).
  assert (EX : exists ms, primary_ratio (with_basis KLogXLogY) (with_basis KLogY) nm nq (flat m1) i1 (flat q) iq (Fin mmax) (Fin mmin) (Fin mmin) = Ok ms).
  { unfold primary_ratio, mass_model, ratio_model. rewrite ED.
    destruct (make_m1d_ok KLogXLogY mmin mmax (with_basis KLogXLogY) nm (flat m1) i1) as (a & ->); auto; [split; cbn; lra|]. cbn [rbind].
    destruct (make_m1d_ok KLogY (mmin / mmax) 1 (with_basis KLogY) nq (flat q) iq) as (b & ->); auto; [split; cbn; intros; try lra; discriminate|]. cbn [rbind]. eauto. }
  destruct EX as (ms & EM). rewrite EM. exists ms. split; auto. intros mcs qcs LM LQ.
  assert (F1 : finite_range (Fin mmin, Fin mmax) (with_basis KLogXLogY)) by (exists mmin, mmax; reflexivity).
  assert (F2 : finite_range (ndiv (Fin mmin) (Fin mmax), Fin 1) (with_basis KLogY)) by (rewrite ED; exists (mmin / mmax), 1; reflexivity).
  destruct (primary_ratio_product _ _ _ _ _ _ _ _ _ _ _ ms mcs qcs true F1 F2 EM ltac:(lia) ltac:(lia) LM LQ ltac:(cbn; lia)) as (P & EP & LP & HP).
  destruct (primary_ratio_product _ _ _ _ _ _ _ _ _ _ _ ms mcs qcs false F1 F2 EM ltac:(lia) ltac:(lia) LM LQ ltac:(cbn; lia)) as (I & EI & LI & HI).
  exists P, I. split; auto. split; auto. cbn [samples] in *. rewrite ED in *. split; [lia|]. split; [lia|]. split.
  - intros i j Hi Hj. destruct (HP (i * n + j)%nat) as (p & r & Q1 & Q2 & Q3); [rewrite L1; apply idx_lt; auto|].
    exists p, r. rewrite V1 in Q1 by auto. rewrite V2 in Q2 by auto. split; [exact Q1|]. split; [exact Q2|exact Q3].
  - intros j Hj. destruct (HI j) as (p & r & Q1 & Q2 & Q3); [lia|]. exists p, r. rewrite W1 in Q1. rewrite W2 in Q2. split; [exact Q1|]. split; [exact Q2|exact Q3].
Qed.

(** a pair of spin models called on both sets of samples *)
Lemma spin_pair (tilts : bool) n1 n2 pe inj E n k c1 c2 x1 i1 x2 i2 ms s1 s2 :
  (if tilts then independent_spin_tilts else independent_spin_magnitudes) normalized normalized n1 n2 (flat x1) (flat x2) i1 i2 = Ok ms ->
  (4 <= n1)%nat -> (4 <= n2)%nat -> length s1 = n1 -> length s2 = n2 ->
  length (flat x1) = (E * n)%nat -> length (flat x2) = (E * n)%nat -> length i1 = k -> length i2 = k ->
  (forall i j, (i < E)%nat -> (j < n)%nat -> nth (i * n + j) (flat x1) NaN = at2 pe c1 i j) -> (forall j, nth j i1 NaN = at1 inj c1 j) ->
  (forall i j, (i < E)%nat -> (j < n)%nat -> nth (i * n + j) (flat x2) NaN = at2 pe c2 i j) -> (forall j, nth j i2 NaN = at1 inj c2 j) ->
  exists P I, pair_call (fst ms) (snd ms) s1 s2 true = Ok P /\ pair_call (fst ms) (snd ms) s1 s2 false = Ok I /\
    each_sample pe inj E n k P I (fun x y => let lo := if tilts then -1 else 0 in exists p r, density_at KLogY (Fin lo, Fin 1) no_opts n1 s1 (x c1) p /\ density_at KLogY (Fin lo, Fin 1) no_opts n2 s2 (x c2) r /\ y = nmul p r).
Proof.
  intros EM H1 H2 L1 L2 X1 X2 I1 I2 V1 W1 V2 W2. set (lo := if tilts then -1 else 0).
  assert (F : finite_range (Fin lo, Fin 1) normalized) by (exists lo, 1; reflexivity).
  assert (PP : forall b, exists ps, pair_call (fst ms) (snd ms) s1 s2 b = Ok ps /\ length ps = length (samples (flat x1) i1 b) /\
    forall i, (i < length (samples (flat x1) i1 b))%nat -> exists p q, density_at KLogY (Fin lo, Fin 1) normalized n1 s1 (nth i (samples (flat x1) i1 b) NaN) p /\
       density_at KLogY (Fin lo, Fin 1) normalized n2 s2 (nth i (samples (flat x2) i2 b) NaN) q /\ nth i ps NaN = nmul p q).
  { intros b. assert (LS : length (samples (flat x1) i1 b) = length (samples (flat x2) i2 b)) by (destruct b; cbn; lia).
    unfold lo in *. destruct tilts; [eapply tilts_product|eapply magnitudes_product]; eauto; lia. }
  destruct (PP true) as (P & EP & LP & HP). destruct (PP false) as (I & EI & LI & HI). exists P, I. split; auto. split; auto. cbn [samples] in *.
  split; [lia|]. split; [lia|]. split.
  - intros i j Hi Hj. destruct (HP (i * n + j)%nat) as (p & r & Q1 & Q2 & Q3); [rewrite X1; apply idx_lt; auto|].
    exists p, r. rewrite V1 in Q1 by auto. rewrite V2 in Q2 by auto. split; [exact Q1|]. split; [exact Q2|exact Q3].
  - intros j Hj. destruct (HI j) as (p & r & Q1 & Q2 & Q3); [lia|]. exists p, r. rewrite W1 in Q1. rewrite W2 in Q2. split; [exact Q1|]. split; [exact Q2|exact Q3].
Qed.
Lemma spin_pair_ok (tilts : bool) n1 n2 x1 x2 i1 i2 : (4 <= n1)%nat -> (4 <= n2)%nat ->
  exists ms, (if tilts then independent_spin_tilts else independent_spin_magnitudes) normalized normalized n1 n2 x1 x2 i1 i2 = Ok ms.
Proof.
  intros H1 H2. destruct tilts; unfold independent_spin_tilts, independent_spin_magnitudes, spin_tilt, spin_magnitude.
  - destruct (make_m1d_ok KLogY (-1) 1 normalized n1 x1 i1) as (a & ->); auto; [split; cbn; intros; try lra; discriminate|].
    destruct (make_m1d_ok KLogY (-1) 1 normalized n2 x2 i2) as (b & ->); auto; [split; cbn; intros; try lra; discriminate|]. cbn. eauto.
  - destruct (make_m1d_ok KLogY 0 1 normalized n1 x1 i1) as (a & ->); auto; [split; cbn; intros; try lra; discriminate|].
    destruct (make_m1d_ok KLogY 0 1 normalized n2 x2 i2) as (b & ->); auto; [split; cbn; intros; try lra; discriminate|]. cbn. eauto.
Qed.

Lemma spin_setup (IID : bool) pe inj E n k na1 nt1 na2 nt2 : has_data pe inj E n k "a_1" -> has_data pe inj E n k "a_2" -> has_data pe inj E n k "cos_tilt_1" -> has_data pe inj E n k "cos_tilt_2" ->
  (4 <= na1)%nat -> (4 <= nt1)%nat -> (IID = false -> (4 <= na2)%nat /\ (4 <= nt2)%nat) ->
  let na := if IID then na1 else na2 in let nt := if IID then nt1 else nt2 in
  exists mag tilt, setup_bspline_spin_models pe inj (AInt (Z.of_nat na1)) (AInt (Z.of_nat nt1)) IID (AInt (Z.of_nat na2)) (AInt (Z.of_nat nt2)) = Ok (mag, tilt) /\
  (forall c1 c2, length c1 = na1 -> length c2 = na ->
    exists P I, pair_call (fst mag) (snd mag) c1 c2 true = Ok P /\ pair_call (fst mag) (snd mag) c1 c2 false = Ok I /\ each_sample pe inj E n k P I (magnitude_density na1 na c1 c2)) /\
  (forall c1 c2, length c1 = nt1 -> length c2 = nt ->
    exists P I, pair_call (fst tilt) (snd tilt) c1 c2 true = Ok P /\ pair_call (fst tilt) (snd tilt) c1 c2 false = Ok I /\ each_sample pe inj E n k P I (tilt_density nt1 nt c1 c2)).
Proof.
  intros D1 D2 D3 D4 G1 G2 G3 na nt.
  destruct (data_samples _ _ _ _ _ _ D1) as (x1 & i1 & A1 & B1 & L1 & K1 & V1 & W1). destruct (data_samples _ _ _ _ _ _ D2) as (x2 & i2 & A2 & B2 & L2 & K2 & V2 & W2).
  destruct (data_samples _ _ _ _ _ _ D3) as (x3 & i3 & A3 & B3 & L3 & K3 & V3 & W3). destruct (data_samples _ _ _ _ _ _ D4) as (x4 & i4 & A4 & B4 & L4 & K4 & V4 & W4).
  assert (G4 : (4 <= na)%nat /\ (4 <= nt)%nat) by (unfold na, nt; destruct IID; auto).
  destruct (spin_pair_ok false na1 na (flat x1) (flat x2) i1 i2 G1 (proj1 G4)) as (mag & EM). destruct (spin_pair_ok true nt1 nt (flat x3) (flat x4) i3 i4 G2 (proj2 G4)) as (tilt & ET).
  exists mag, tilt. split.
  - unfold setup_bspline_spin_models. rewrite A1, B1, A2, B2, A3, B3, A4, B4. cbn [rbind]. rewrite !count_ok. cbn [rbind]. unfold na, nt in *.
    destruct IID; [change (iid_spin_tilts normalized nt1) with (independent_spin_tilts normalized normalized nt1 nt1); change (iid_spin_magnitudes normalized na1) with (independent_spin_magnitudes normalized normalized na1 na1)|];
      rewrite ET; cbn [rbind]; rewrite EM; reflexivity.
  - split; intros c1 c2 LC1 LC2.
    + apply (spin_pair false na1 na pe inj E n k "a_1" "a_2" x1 i1 x2 i2); auto; apply G4.
    + apply (spin_pair true nt1 nt pe inj E n k "cos_tilt_1" "cos_tilt_2" x3 i3 x4 i4); auto; apply G4.
Qed.

Lemma spin_setup_independent pe inj E n k na1 nt1 na2 nt2 : has_data pe inj E n k "a_1" -> has_data pe inj E n k "a_2" -> has_data pe inj E n k "cos_tilt_1" -> has_data pe inj E n k "cos_tilt_2" ->
  (4 <= na1)%nat -> (4 <= nt1)%nat -> (4 <= na2)%nat -> (4 <= nt2)%nat ->
  exists mag tilt, setup_bspline_spin_models pe inj (AInt (Z.of_nat na1)) (AInt (Z.of_nat nt1)) false (AInt (Z.of_nat na2)) (AInt (Z.of_nat nt2)) = Ok (mag, tilt) /\
  (forall c1 c2, length c1 = na1 -> length c2 = na2 ->
    exists P I, pair_call (fst mag) (snd mag) c1 c2 true = Ok P /\ pair_call (fst mag) (snd mag) c1 c2 false = Ok I /\ each_sample pe inj E n k P I (magnitude_density na1 na2 c1 c2)) /\
  (forall c1 c2, length c1 = nt1 -> length c2 = nt2 ->
    exists P I, pair_call (fst tilt) (snd tilt) c1 c2 true = Ok P /\ pair_call (fst tilt) (snd tilt) c1 c2 false = Ok I /\ each_sample pe inj E n k P I (tilt_density nt1 nt2 c1 c2)).
Proof. intros. apply (spin_setup false); auto. Qed.
Lemma spin_setup_iid pe inj E n k na nt a2 ct2 : has_data pe inj E n k "a_1" -> has_data pe inj E n k "a_2" -> has_data pe inj E n k "cos_tilt_1" -> has_data pe inj E n k "cos_tilt_2" ->
  (4 <= na)%nat -> (4 <= nt)%nat ->
  exists mag tilt, setup_bspline_spin_models pe inj (AInt (Z.of_nat na)) (AInt (Z.of_nat nt)) true a2 ct2 = Ok (mag, tilt) /\
  (forall c, length c = na ->
    exists P I, iid_call (fst mag) (snd mag) c true = Ok P /\ iid_call (fst mag) (snd mag) c false = Ok I /\ each_sample pe inj E n k P I (magnitude_density na na c c)) /\
  (forall c, length c = nt ->
    exists P I, iid_call (fst tilt) (snd tilt) c true = Ok P /\ iid_call (fst tilt) (snd tilt) c false = Ok I /\ each_sample pe inj E n k P I (tilt_density nt nt c c)).
Proof.
  intros D1 D2 D3 D4 G1 G2. destruct (spin_setup true pe inj E n k na nt 0 0 D1 D2 D3 D4 G1 G2 ltac:(discriminate)) as (mag & tilt & EQ & H1 & H2).
  exists mag, tilt. split; [exact EQ|]. split; intros; [apply H1|apply H2]; auto.
Qed.

(** the secondary spin's numbers of splines are needed when the spins are not identically distributed *)
Lemma spin_setup_default pe inj E n k na nt : has_data pe inj E n k "cos_tilt_1" -> has_data pe inj E n k "cos_tilt_2" -> setup_bspline_spin_models pe inj (AInt (Z.of_nat na)) (AInt (Z.of_nat nt)) false ANone ANone = Err TypeError.
Proof.
  intros D3 D4. destruct (data_samples _ _ _ _ _ _ D3) as (x3 & i3 & A3 & B3 & _). destruct (data_samples _ _ _ _ _ _ D4) as (x4 & i4 & A4 & B4 & _).
  unfold setup_bspline_spin_models. rewrite A3, B3, A4, B4. cbn [rbind]. rewrite count_ok. reflexivity.
Qed.

Lemma redshift_setup dVcdz v pe inj n p0 zs i0 is : redshifts_are pe inj p0 zs i0 is -> (4 <= n)%nat -> good_redshifts KLogX dVcdz v p0 zs i0 is ->
  let a := grid_lo p0 zs i0 is in let b := grid_hi p0 zs i0 is in wide_range KLogX n 4 a b ->
  exists m, setup_powerlaw_spline_redshift_model dVcdz pe inj (AInt (Z.of_nat n)) = Ok m /\
  forall lamb cs sel, length cs = n ->
    plz_model_call m (map Fin (all_samples p0 zs i0 is sel)) sel (Fin lamb) (map Fin cs) = Ok (map Fin (map (redshift_density v a b lamb n cs) (all_samples p0 zs i0 is sel))).
Proof.
  intros (t & E1 & E2 & E3) Hn HG a b HW. unfold setup_powerlaw_spline_redshift_model. rewrite E1, E3. cbn [rbind]. unfold flat. rewrite E2. cbn [map]. rewrite count_ok. cbn [rbind].
  assert (EX : exists m, make_plz_model dVcdz KLogX n (Fin p0) (map Fin zs) (Fin i0) (map Fin is) = Ok m).
  { unfold make_plz_model. rewrite redshift_init_fin. cbn [zm_min zm_max zm_zs]. destruct HG as (G1 & G2 & _).
    destruct (make_default KLogX n 4 (grid_lo p0 zs i0 is) (grid_hi p0 zs i0 is) false ltac:(lia)) as (sp & E & _).
    - split; [apply G1|]. intros L. apply (G2 L).
    - unfold grid_lo, grid_hi in E. rewrite E. cbn [rbind]. eauto. }
  destruct EX as (m & EM). rewrite EM. exists m. split; auto. intros lamb cs sel LC.
  rewrite (plz_value dVcdz v KLogX n p0 zs i0 is m lamb cs sel (or_intror eq_refl) Hn HG HW EM LC). reflexivity.
Qed.

Lemma assoc_err {A} k (d : list (string * A)) e : assoc k d = Err e -> e = KeyError.
Proof. induction d as [|[k' a] d IH]; cbn; [congruence|]. destruct (String.eqb k k'); [discriminate|auto]. Qed.
Ltac look k d := let E := fresh "E" in destruct (assoc k d) eqn:E; [|apply assoc_err in E; cbn [rbind]; congruence].
Lemma mass_missing pe inj nm nq mmin mmax c : In c ["mass_1"; "mass_ratio"] -> assoc c pe = Err KeyError \/ assoc c inj = Err KeyError ->
  setup_bspline_mass_models pe inj nm nq mmin mmax = Err KeyError.
Proof.
  intros HI HE. unfold setup_bspline_mass_models. look "mass_1" pe. look "mass_1" inj. look "mass_ratio" pe. look "mass_ratio" inj.
  cbn in HI. destruct HI as [<-|[<-|[]]]; destruct HE; congruence.
Qed.
Lemma redshift_missing dVcdz pe inj n : assoc "redshift" pe = Err KeyError \/ assoc "redshift" inj = Err KeyError -> setup_powerlaw_spline_redshift_model dVcdz pe inj n = Err KeyError.
Proof. intros HE. unfold setup_powerlaw_spline_redshift_model. look "redshift" pe. look "redshift" inj. destruct HE; congruence. Qed.
Lemma spin_missing pe inj na nt (IID : bool) na2 nt2 c : In c ["a_1"; "a_2"; "cos_tilt_1"; "cos_tilt_2"] -> assoc c pe = Err KeyError \/ assoc c inj = Err KeyError ->
  (4 <= nt)%nat -> (IID = false -> (4 <= nt2)%nat) ->
  setup_bspline_spin_models pe inj na (AInt (Z.of_nat nt)) IID na2 (AInt (Z.of_nat nt2)) = Err KeyError.
Proof.
  intros HI HE H1 H2. unfold setup_bspline_spin_models. rewrite !count_ok.
  destruct IID; look "cos_tilt_1" pe; look "cos_tilt_2" pe; look "cos_tilt_1" inj; look "cos_tilt_2" inj; cbn [rbind].
  - change (iid_spin_tilts normalized nt) with (independent_spin_tilts normalized normalized nt nt).
    match goal with |- context [independent_spin_tilts _ _ _ _ ?x ?y ?u ?w] => destruct (spin_pair_ok true nt nt x y u w H1 H1) as (tl & ET) end. cbv beta iota in ET. rewrite ET. cbn [rbind].
    look "a_1" pe; look "a_2" pe; look "a_1" inj; look "a_2" inj. cbn in HI. destruct HI as [<-|[<-|[<-|[<-|[]]]]]; destruct HE; congruence.
  - match goal with |- context [independent_spin_tilts _ _ _ _ ?x ?y ?u ?w] => destruct (spin_pair_ok true nt nt2 x y u w H1 (H2 eq_refl)) as (tl & ET) end. cbv beta iota in ET. rewrite ET. cbn [rbind].
    look "a_1" pe; look "a_2" pe; look "a_1" inj; look "a_2" inj. cbn in HI. destruct HI as [<-|[<-|[<-|[<-|[]]]]]; destruct HE; congruence.
Qed.

(** ** The example's weights *)
Lemma nth_mapR (f : R -> R) (l : list R) i : (i < length l)%nat -> nth i (map Fin (map f l)) NaN = Fin (f (nth i l 0)).
Proof. intros H. rewrite map_map. rewrite (PBSplines.nth_map' (fun z => Fin (f z)) l i NaN 0) by auto. reflexivity. Qed.
Lemma nth_mapFin (l : list R) i : (i < length l)%nat -> nth i (map Fin l) NaN = Fin (nth i l 0).
Proof. intros H. apply (PBSplines.nth_map' Fin l i NaN 0). auto. Qed.

Lemma weights_list pm pa pt pz pr L : length pm = L -> length pa = L -> length pt = L -> length pz = L -> length pr = L ->
  exists w, (do w <- product pm pa; do w <- product w pt; do w <- product w pz; quotient w pr) = Ok w /\ length w = L /\
    forall i, (i < L)%nat -> nth i w NaN = ndiv (nmul (nmul (nmul (nth i pm NaN) (nth i pa NaN)) (nth i pt NaN)) (nth i pz NaN)) (nth i pr NaN).
Proof.
  intros L1 L2 L3 L4 L5. unfold product. rewrite L1, L2, Nat.eqb_refl. cbn [rbind].
  assert (M1 : length (map2 nmul pm pa) = L) by (apply nth_map2_len; auto). rewrite M1, L3, Nat.eqb_refl. cbn [rbind].
  assert (M2 : length (map2 nmul (map2 nmul pm pa) pt) = L) by (apply nth_map2_len; auto). rewrite M2, L4, Nat.eqb_refl. cbn [rbind].
  assert (M3 : length (map2 nmul (map2 nmul (map2 nmul pm pa) pt) pz) = L) by (apply nth_map2_len; auto). unfold quotient. rewrite M3, L5, Nat.eqb_refl.
  eexists. split; [reflexivity|]. split; [apply nth_map2_len; auto|]. intros i Hi.
  rewrite (map2_nth' ndiv _ _ i NaN NaN) by lia. rewrite (map2_nth' nmul _ pz i NaN NaN) by lia. rewrite (map2_nth' nmul _ pt i NaN NaN) by lia. rewrite (map2_nth' nmul pm pa i NaN NaN) by lia. reflexivity.
Qed.

Lemma example_weights dVcdz v pe inj E n k nm nq na nct nz mmin mmax p0 zs i0 is :
  (forall c, In c ["mass_1"; "mass_ratio"; "a_1"; "a_2"; "cos_tilt_1"; "cos_tilt_2"; "redshift"; "prior"] -> has_data pe inj E n k c) ->
  0 < mmin < mmax -> (4 <= nm)%nat -> (4 <= nq)%nat -> (4 <= na)%nat -> (4 <= nct)%nat -> (4 <= nz)%nat ->
  redshifts_are pe inj p0 zs i0 is -> good_redshifts KLogX dVcdz v p0 zs i0 is ->
  let a := grid_lo p0 zs i0 is in let b := grid_hi p0 zs i0 is in wide_range KLogX nz 4 a b ->
  exists mass mag tilt zm z pr zi pri,
    example_setup dVcdz pe inj (AInt (Z.of_nat nm)) (AInt (Z.of_nat nq)) (AInt (Z.of_nat na)) (AInt (Z.of_nat nct)) (AInt (Z.of_nat nz)) (Fin mmin) (Fin mmax) = Ok (mass, mag, tilt, zm) /\
    assoc "redshift" pe = Ok z /\ assoc "prior" pe = Ok pr /\ assoc "redshift" inj = Ok zi /\ assoc "prior" inj = Ok pri /\
    forall mcs qcs a1 t1 a2 t2 zcs lamb, length mcs = nm -> length qcs = nq -> length a1 = na -> length a2 = na -> length t1 = nct -> length t2 = nct -> length zcs = nz ->
    exists P I, bspline_weights mass mag tilt zm mcs qcs a1 t1 a2 t2 (map Fin zcs) (Fin lamb) (flat z) (flat pr) true = Ok P /\
      bspline_weights mass mag tilt zm mcs qcs a1 t1 a2 t2 (map Fin zcs) (Fin lamb) zi pri false = Ok I /\
      each_sample pe inj E n k P I (sample_weight mmin mmax nm nq na nct mcs qcs a1 t1 a2 t2 (redshift_density v a b lamb nz zcs)).
Proof.
  intros HD HM N1 N2 N3 N4 N5 HR HG a b HW.
  destruct (mass_setup pe inj E n k nm nq mmin mmax) as (mass & ES & MS); auto; try (apply HD; cbn; tauto).
  destruct (spin_setup_independent pe inj E n k na nct na nct) as (mag & tilt & ET & SM & ST); auto; try (apply HD; cbn; tauto).
  destruct (redshift_setup dVcdz v pe inj nz p0 zs i0 is HR N5 HG HW) as (zm & EZ & ZM).
  assert (DZ : has_data pe inj E n k "redshift") by (apply HD; cbn; tauto). assert (DP : has_data pe inj E n k "prior") by (apply HD; cbn; tauto).
  destruct (data_samples _ _ _ _ _ _ DZ) as (z & zi & Z1 & Z2 & Z3 & Z4 & Z5 & Z6). destruct (data_samples _ _ _ _ _ _ DP) as (pr & pri & Q1 & Q2 & Q3 & Q4 & Q5 & Q6).
  exists mass, mag, tilt, zm, z, pr, zi, pri. split.
  { unfold example_setup. rewrite ES. cbn [rbind]. rewrite ET. cbn [rbind]. rewrite EZ. reflexivity. }
  do 4 (split; auto). intros mcs qcs a1 t1 a2 t2 zcs lamb LM LQ LA1 LA2 LT1 LT2 LZ.
  destruct (MS mcs qcs LM LQ) as (PM & IM & EM1 & EM2 & M1 & M2 & M3 & M4). destruct (SM a1 a2 LA1 LA2) as (PA & IA & EA1 & EA2 & A1 & A2 & A3 & A4). destruct (ST t1 t2 LT1 LT2) as (PT & IT & ET1 & ET2 & T1 & T2 & T3 & T4).
  destruct HR as (t & R1 & R2 & R3). rewrite Z1 in R1. injection R1 as <-. rewrite Z2 in R3. apply Ok_inj in R3.
  assert (FZ : flat z = map Fin (all_samples p0 zs i0 is true)) by exact R2. assert (FI : zi = map Fin (all_samples p0 zs i0 is false)) by exact R3.
  pose proof (ZM lamb zcs true LZ) as ZP. pose proof (ZM lamb zcs false LZ) as ZI. rewrite <- FZ in ZP. rewrite <- FI in ZI.
  set (dz := redshift_density v a b lamb nz zcs) in *. set (SP := all_samples p0 zs i0 is true) in *. set (SI := all_samples p0 zs i0 is false) in *.
  assert (LP : length SP = (E * n)%nat) by (rewrite <- Z3, FZ, map_length; auto). assert (LI : length SI = k) by (rewrite <- Z4, FI, map_length; auto).
  unfold bspline_weights. rewrite EM1, EM2, EA1, EA2, ET1, ET2, ZP, ZI. cbn [rbind].
  destruct (weights_list PM PA PT (map Fin (map dz SP)) (flat pr) (E * n)) as (P & EP & LP' & HP); auto; [rewrite !map_length; auto|].
  destruct (weights_list IM IA IT (map Fin (map dz SI)) pri k) as (I & EI & LI' & HI); auto; [rewrite !map_length; auto|].
  exists P, I. split; auto. split; auto. split; auto. split; auto. split.
  - intros i j Hi Hj. pose proof (idx_lt E n i j Hi Hj) as HX. rewrite HP by auto. exists (nth (i * n + j) PM NaN), (nth (i * n + j) PA NaN), (nth (i * n + j) PT NaN), (nth (i * n + j) SP 0).
    split; [apply M3; auto|]. split; [apply A3; auto|]. split; [apply T3; auto|]. split; [rewrite <- Z5 by auto; rewrite FZ; apply nth_mapFin; lia|]. rewrite nth_mapR by lia. rewrite Q5 by auto. reflexivity.
  - intros j Hj. rewrite HI by auto. exists (nth j IM NaN), (nth j IA NaN), (nth j IT NaN), (nth j SI 0).
    split; [apply M4; auto|]. split; [apply A4; auto|]. split; [apply T4; auto|]. split; [rewrite <- Z6; rewrite FI; apply nth_mapFin; lia|]. rewrite nth_mapR by lia. rewrite Q6 by auto. reflexivity.
Qed.

(** the call of hierarchical_likelihood never binds *)
Lemma call_unbound keywords p a d w iw : In "surv_hypervolume_fct" keywords -> call_likelihood p keywords a d w iw = raise TypeError.
Proof.
  intros HI. unfold call_likelihood. destruct (binds likelihood_parameters p keywords) eqn:E; auto. exfalso. unfold binds in E. rewrite forallb_forall in E. specialize (E _ HI).
  rewrite existsb_exists in E. destruct E as (x & HX & E). apply String.eqb_eq in E. subst x.
  assert (HX' : In "surv_hypervolume_fct" likelihood_parameters).
  { rewrite <- (firstn_skipn p likelihood_parameters). apply in_or_app. auto. }
  cbn in HX'. repeat destruct HX' as [HX'|HX']; try discriminate. contradiction.
Qed.
Lemma example_raises rv lamb a d pe inj mass mag tilt zm nm nq na nct nz : exists e, snd (bspline_example_model rv lamb a d pe inj mass mag tilt zm nm nq na nct nz) = raise e.
Proof.
  unfold bspline_example_model, bspline_example_with. match goal with |- context [let '(_, _) := ?x in _] => destruct x as [sites cs] end. cbn [snd].
  destruct cs as [[[mq spin] zcs]|e]; [|eauto]. destruct mq as [|mcs qcs]; [eauto|]. destruct spin as [|a1 [|t1 [|a2 [|t2 [|]]]]]; eauto.
  match goal with |- context [match ?x with _ => _ end] => destruct x as [w|e]; [|eauto] end.
  match goal with |- context [match ?x with _ => _ end] => destruct x as [u|e]; [|eauto] end.
  destruct (assoc "redshift" pe) as [z|e]; [|eauto]. exists TypeError. apply call_unbound. cbn. tauto.
Qed.

(** mean and variance of the Beta density the power-law-peak example gives to a spin magnitude *)
(** with keywords the likelihood accepts, the example evaluates it on the weights above *)
Lemma rows_concat n k l : length l = (k * n)%nat -> concat (rows_of n k l) = l /\ length (rows_of n k l) = k /\ Forall (fun r => length r = n) (rows_of n k l).
Proof.
  revert l. induction k as [|k IH]; intros l H; cbn [rows_of concat].
  - destruct l; [auto|discriminate].
  - destruct (IH (skipn n l)) as (A & B & D); [rewrite skipn_length; cbn in H; lia|]. split; [rewrite A; apply firstn_skipn|]. split; [cbn; now rewrite B|]. constructor; [rewrite firstn_length; cbn in H; lia|exact D].
Qed.
Lemma example_call keywords rv lamb a d dVcdz v pe inj E n k nm nq na nct nz mmin mmax p0 zs i0 is zr : binds likelihood_parameters 5 keywords = true ->
  (forall c, In c ["mass_1"; "mass_ratio"; "a_1"; "a_2"; "cos_tilt_1"; "cos_tilt_2"; "redshift"; "prior"] -> has_data pe inj E n k c) ->
  0 < mmin < mmax -> (4 <= nm)%nat -> (4 <= nq)%nat -> (4 <= na)%nat -> (4 <= nct)%nat -> (4 <= nz)%nat ->
  redshifts_are pe inj p0 zs i0 is -> good_redshifts KLogX dVcdz v p0 zs i0 is ->
  let lo := grid_lo p0 zs i0 is in let hi := grid_hi p0 zs i0 is in wide_range KLogX nz 4 lo hi -> (forall i, rv "z_cs" i = Fin (zr i)) ->
  exists mass mag tilt zm, example_setup dVcdz pe inj (AInt (Z.of_nat nm)) (AInt (Z.of_nat nq)) (AInt (Z.of_nat na)) (AInt (Z.of_nat nct)) (AInt (Z.of_nat nz)) (Fin mmin) (Fin mmax) = Ok (mass, mag, tilt, zm) /\
  exists rows I, snd (bspline_example_with keywords rv (Fin lamb) a d pe inj mass mag tilt zm nm nq na nct nz) = hierarchical_likelihood a d (PEOne (Arr2 n rows)) I /\
    length rows = E /\ Forall (fun r => length r = n) rows /\
    each_sample pe inj E n k (concat rows) I (sample_weight mmin mmax nm nq na nct (drawn rv "mass_cs" nm) (drawn rv "q_cs" nq) (drawn rv "a1_cs" na) (drawn rv "tilt1_cs" nct) (drawn rv "a2_cs" na) (drawn rv "tilt2_cs" nct)
      (redshift_density v lo hi lamb nz (0 :: map zr (seq 0 (nz - 1))))).
Proof.
  intros HB HD HM N1 N2 N3 N4 N5 HR HG lo hi HW HZ.
  assert (DZ : has_data pe inj E n k "redshift") by (apply HD; cbn; tauto). 
  destruct (example_weights dVcdz v pe inj E n k nm nq na nct nz mmin mmax p0 zs i0 is HD HM N1 N2 N3 N4 N5 HR HG HW) as (mass & mag & tilt & zm & z & pr & zi & pri & ES & Z1 & P1 & Z2 & P2 & W).
  exists mass, mag, tilt, zm. split; [exact ES|].
  assert (LD : forall s m, length (drawn rv s m) = m) by (intros; unfold drawn; now rewrite map_length, seq_length).
  destruct (W (drawn rv "mass_cs" nm) (drawn rv "q_cs" nq) (drawn rv "a1_cs" na) (drawn rv "tilt1_cs" nct) (drawn rv "a2_cs" na) (drawn rv "tilt2_cs" nct) (0 :: map zr (seq 0 (nz - 1))) lamb) as (P & I & EP & EI & ES'); auto.
  { cbn. rewrite map_length, seq_length. lia. }
  destruct DZ as ((z' & Z1' & C1 & C2 & C3) & _). rewrite Z1 in Z1'. injection Z1' as <-.
  destruct (rows_concat n E P) as (R1 & R2 & R3); [apply ES'|]. exists (rows_of n E P), I. rewrite R1. split; [|auto].
  unfold bspline_example_with, bspline_mass_prior, bspline_spin_prior, bspline_redshift_prior, sample_smoothed, sample_vec, MUtils.smooth. destruct nz as [|nz']; [lia|].
  cbn [p_bind p_ret suffix]. rewrite Z1, Z2, P1, P2. cbn [rbind snd].
  assert (EZ : Fin 0 :: map (rv ("z_cs" ++ "")%string) (seq 0 nz') = map Fin (0 :: map zr (seq 0 (S nz' - 1)))).
  { cbn [map Nat.sub]. rewrite Nat.sub_0_r, map_map. f_equal. apply map_ext. intros i. apply HZ. }
  rewrite EZ. unfold drawn in *. change ("mass_cs" ++ "")%string with "mass_cs". change ("q_cs" ++ "")%string with "q_cs". change ("a1_cs" ++ "")%string with "a1_cs". change ("a2_cs" ++ "")%string with "a2_cs".
  change ("tilt1_cs" ++ "")%string with "tilt1_cs". change ("tilt2_cs" ++ "")%string with "tilt2_cs". rewrite EP, EI. unfold call_likelihood. rewrite HB. subst.
  match goal with |- hierarchical_likelihood _ _ (PEOne (Arr2 _ ?x)) _ = hierarchical_likelihood _ _ (PEOne (Arr2 _ ?y)) _ => constr_eq x y end. reflexivity.
Qed.
Lemma redshift_empty dVcdz pe inj n z zi : assoc "redshift" pe = Ok z -> assoc "redshift" inj = Ok zi -> flat z = [] \/ zi = [] -> setup_powerlaw_spline_redshift_model dVcdz pe inj n = Err ValueError.
Proof. intros E1 E2 H. unfold setup_powerlaw_spline_redshift_model. rewrite E1, E2. cbn [rbind]. destruct H as [-> | ->]; [reflexivity|]. destruct (flat z); reflexivity. Qed.
Lemma peak_value betaln zm alpha beta mmin mmax mpp sigpp lam mu1 v1 mu2 v2 x1 x2 s1 s2 lamb m1 q a1 a2 c1 c2 z dV prior pq p nn b1 b2 n1 n2 pz : 0 < m1 -> -1 <= c1 <= 1 -> -1 <= c2 <= 1 -> 0 < s1 -> 0 < s2 -> prior <> 0 ->
  powerlaw_pdf (Fin q) (Fin beta) (Fin (mmin / m1)) (Fin 1) (Fin 0) = Fin pq -> powerlaw_pdf (Fin m1) (Fin alpha) (Fin mmin) (Fin mmax) (Fin 0) = Fin p ->
  truncnorm_pdf (Fin m1) (Fin mpp) (Fin sigpp) (Fin mmin) (Fin mmax) false = Fin nn ->
  betadist betaln a1 (Fin (mu1 * v1)) (Fin ((1 - mu1) * v1)) (Fin 1) (Fin 0) = Fin b1 -> betadist betaln a2 (Fin (mu2 * v2)) (Fin ((1 - mu2) * v2)) (Fin 1) (Fin 0) = Fin b2 ->
  truncnorm_pdf (Fin c1) (Fin 1) (Fin s1) (Fin (-1)) (Fin 1) false = Fin n1 -> truncnorm_pdf (Fin c2) (Fin 1) (Fin s2) (Fin (-1)) (Fin 1) false = Fin n2 -> redshift_call zm z dV lamb = Fin pz ->
  peak_weight betaln zm (Fin alpha) (Fin beta) (Fin mmin) (Fin mmax) (Fin mpp) (Fin sigpp) (Fin lam) (Fin mu1) (Fin v1) (Fin mu2) (Fin v2) (Fin x1) (Fin x2) (Fin s1) (Fin s2) lamb (Fin m1) (Fin q) a1 a2 (Fin c1) (Fin c2) z dV (Fin prior)
  = Fin (pq * ((1 - lam) * p + lam * nn) * (b1 * b2) * (((1 - x1) * (1/2) + x1 * n1) * ((1 - x2) * (1/2) + x2 * n2)) * pz / prior).
Proof.
  intros H1 H2 H3 H4 H5 H6 E1 E2 E3 E4 E5 E6 E7 E8. unfold peak_weight, peak_shapes. rewrite !nsub_fin, !nmul_fin. rewrite (plpeak_ratio_value m1 q alpha beta mmin mmax mpp sigpp lam pq p nn); auto.
  rewrite (independent_tilt_value c1 c2 x1 x2 s1 s2 n1 n2); auto. unfold independent_spin_magnitude_beta_dist. rewrite E4, E5, E8. rewrite !nmul_fin. apply ndiv_fin. exact H6.
Qed.
Lemma peak_moments betaln mu var lnB a b : 0 < mu < 1 -> 0 < var -> peak_shapes (Fin mu) (Fin var) = (Fin a, Fin b) -> betaln (Fin a) (Fin b) = Fin lnB -> beta_integral_open a b (exp lnB) ->
  exists f, (forall x, 0 < x < 1 -> betadist betaln (Fin x) (Fin a) (Fin b) (Fin 1) (Fin 0) = Fin (f x)) /\
    is_RInt_gen f (at_right 0) (at_left 1) 1 /\ is_RInt_gen (fun x => x * f x) (at_right 0) (at_left 1) mu /\
    is_RInt_gen (fun x => (x - mu) * (x - mu) * f x) (at_right 0) (at_left 1) (mu * (1 - mu) / (1 + var)).
Proof.
  intros Hm Hv E EB HB. cbn in E. injection E as <- <-. assert (A : 0 < mu * var) by nra. assert (B : 0 < (1 - mu) * var) by nra.
  destruct (beta_moments betaln (mu * var) ((1 - mu) * var) 1 lnB A B ltac:(lra) EB HB) as (f & m & w & F & EM & I0 & I1 & I2).
  rewrite mu_var_fin in EM by lra. injection EM as <- <-.
  replace (mu * var / (mu * var + (1 - mu) * var) * 1) with mu in * by (field; lra). exists f. split; auto. split; auto. split; auto.
  match type of I2 with is_RInt_gen _ _ _ ?w => replace (mu * (1 - mu) / (1 + var)) with w; auto; field; split; lra end.
Qed.

Lemma peak_variance betaln mu var lnB a b : 0 < mu < 1 -> 0 < var -> peak_shapes (Fin mu) (Fin var) = (Fin a, Fin b) -> betaln (Fin a) (Fin b) = Fin lnB -> beta_integral_open a b (exp lnB) ->
  exists f, (forall x, 0 < x < 1 -> betadist betaln (Fin x) (Fin a) (Fin b) (Fin 1) (Fin 0) = Fin (f x)) /\
    is_RInt_gen f (at_right 0) (at_left 1) 1 /\ is_RInt_gen (fun x => x * f x) (at_right 0) (at_left 1) mu /\
    is_RInt_gen (fun x => (x - mu) * (x - mu) * f x) (at_right 0) (at_left 1) (mu * (1 - mu) / (1 + var)) /\
    (mu * (1 - mu) / (1 + var) = var <-> var * (1 + var) = mu * (1 - mu)) /\ a + b = var.
Proof.
  intros M V S B I. destruct (peak_moments betaln mu var lnB a b M V S B I) as (f & F1 & F2 & F3 & F4). exists f. split; [exact F1|]. split; [exact F2|]. split; [exact F3|]. split; [exact F4|].
  split; [split; intros E; [rewrite <- E at 1; field; lra|rewrite <- E; field; lra]|]. cbn in S. injection S as <- <-. ring.
Qed.
