(** B-spline redshift model and the power-law-times-spline models. *)
From Verif Require Export PBSplines PParametric PNumpyroDist.
From Verif Require Export Spec.
Open Scope R_scope.

Lemma Ok_inj {A} (x y : A) : Ok x = Ok y -> x = y.
Proof. intros H. injection H. auto. Qed.

(** ** bases with finite knots are finite *)
Lemma basis_fin ts k : forall i x, (1 <= k)%nat -> (i + k < length ts)%nat -> exists v, basis (map Fin ts) k i (Fin x) = Fin v.
Proof.
  induction k as [|k IH]; intros i x Hk Hi; [lia|].
  assert (KN : forall j, (j < length ts)%nat -> kn (map Fin ts) j = Fin (nth j ts 0)).
  { intros j Hj. unfold kn. rewrite (nth_indep _ NaN (Fin 0)) by (rewrite map_length; auto). apply map_nth. }
  cbn [basis]. rewrite (KN (i + S k)%nat), (KN i) by lia. rewrite nsub_fin. cbn [nlt].
  destruct (Rltb (nth (i + S k) ts 0 - nth i ts 0) (1 / 10 ^ 6)) eqn:E; [eauto|]. apply Rltb_false in E.
  assert (P6 : 0 < 1 / 10 ^ 6) by lra. destruct k as [|k].
  - destruct (_ && _)%bool; [|eauto]. rewrite (KN (i + 1)%nat) by lia. rewrite nsub_fin, ndiv_fin by lra. eauto.
  - destruct (IH i x) as [v ->]; [lia|lia|]. destruct (IH (i + 1)%nat x) as [w ->]; [lia|lia|].
    rewrite !nsub_fin, !nmul_fin, nadd_fin, nmul_fin. rewrite ndiv_fin; [eauto|]. apply Rmult_integral_contrapositive. split; [apply not_0_INR; lia|lra].
Qed.
Lemma basis_value_fin s ts k lo hi i x : s = KB \/ s = KLogX -> (1 <= k)%nat -> (i + k < length ts)%nat -> (logx s = true -> 0 < x) ->
  exists v, basis_value s (map Fin ts) k (Fin lo) (Fin hi) i (Fin x) = Fin v /\ (coord s x < lo \/ hi < coord s x -> v = 0).
Proof.
  intros Hs Hk Hi Hx. unfold basis_value. rewrite coord_num by auto. unfold oob_where, ngt. cbn [nlt].
  assert (KN : forall j, (j < length ts)%nat -> kn (map Fin ts) j = Fin (nth j ts 0)).
  { intros j Hj. unfold kn. rewrite (nth_indep _ NaN (Fin 0)) by (rewrite map_length; auto). apply map_nth. }
  destruct (Rltb (coord s x) lo || Rltb hi (coord s x))%bool eqn:E.
  - exists 0. split; auto. destruct Hs as [->| ->]; auto.
  - apply orb_false_iff in E. destruct E as [E1 E2]. apply Rltb_false in E1, E2.
    destruct (basis_fin ts k i (coord s x) Hk Hi) as [v V].
    assert (raw_basis s (map Fin ts) k i (Fin (coord s x)) = Fin ((nth (i + k) ts 0 - nth i ts 0) / INR k * v)) as R.
    { unfold raw_basis. rewrite V, !KN by lia. rewrite nsub_fin, ndiv_fin, nmul_fin by (apply not_0_INR; lia). destruct Hs as [->| ->]; auto. }
    rewrite R. eexists. split; [destruct Hs as [->| ->]; reflexivity|]. intros; lra.
Qed.

(** the value of a linear spline *)
Definition lin (s : skind) (ts : list R) (k n : nat) (lo hi : R) (cs : list R) (x : R) : R :=
  toR (nsum (map2 nmul (column s (map Fin ts) k n (Fin lo) (Fin hi) (Fin x)) (map Fin cs))).
Lemma column_fin s ts k n lo hi x : s = KB \/ s = KLogX -> (1 <= k)%nat -> length ts = (n + k)%nat -> (logx s = true -> 0 < x) ->
  exists v, column s (map Fin ts) k n (Fin lo) (Fin hi) (Fin x) = map Fin v /\ length v = n /\ (coord s x < lo \/ hi < coord s x -> v = repeat 0 n).
Proof.
  intros Hs Hk HL Hx. exists (map (fun i => toR (basis_value s (map Fin ts) k (Fin lo) (Fin hi) i (Fin x))) (seq 0 n)).
  split; [|split; [rewrite map_length, seq_length; auto|]].
  - unfold column. rewrite map_map. apply map_ext_in. intros i Hi. apply in_seq in Hi. destruct (basis_value_fin s ts k lo hi i x Hs Hk ltac:(lia) Hx) as (v & -> & _). auto.
  - intros HO. rewrite (map_ext_in _ (fun _ => 0)).
    + assert (G : forall n' a, map (fun _ => 0) (seq a n') = repeat 0 n') by (induction n'; intros; cbn; f_equal; auto). apply G.
    + intros i Hi. apply in_seq in Hi. destruct (basis_value_fin s ts k lo hi i x Hs Hk ltac:(lia) Hx) as (v & -> & HZ). cbn. auto.
Qed.
Lemma zero_dot n cs : Rlsum (map2 Rmult (repeat 0 n) cs) = 0.
Proof. revert cs. induction n as [|n IH]; intros [|c cs]; cbn; auto. rewrite IH. ring. Qed.
Lemma lin_fin s ts k n lo hi cs x : s = KB \/ s = KLogX -> (1 <= k)%nat -> length ts = (n + k)%nat -> (logx s = true -> 0 < x) ->
  nsum (map2 nmul (column s (map Fin ts) k n (Fin lo) (Fin hi) (Fin x)) (map Fin cs)) = Fin (lin s ts k n lo hi cs x).
Proof.
  intros Hs Hk HL Hx. unfold lin. destruct (column_fin s ts k n lo hi x Hs Hk HL Hx) as (v & -> & _). rewrite map2_fin, nsum_fin. reflexivity.
Qed.
Lemma lin_out s ts k n lo hi cs x : s = KB \/ s = KLogX -> (1 <= k)%nat -> length ts = (n + k)%nat -> (logx s = true -> 0 < x) ->
  coord s x < lo \/ hi < coord s x -> lin s ts k n lo hi cs x = 0.
Proof.
  intros Hs Hk HL Hx HO. unfold lin. destruct (column_fin s ts k n lo hi x Hs Hk HL Hx) as (v & -> & _ & HZ). rewrite map2_fin, nsum_fin, HZ by auto. apply zero_dot.
Qed.
Lemma lin_const s ts k n lo hi c x : s = KB \/ s = KLogX -> (1 <= k)%nat -> length ts = (n + k)%nat -> (logx s = true -> 0 < x) ->
  Fin (lin s ts k n lo hi (repeat c n) x) = nmul (Fin c) (nsum (column s (map Fin ts) k n (Fin lo) (Fin hi) (Fin x))).
Proof.
  intros Hs Hk HL Hx. unfold lin. destruct (column_fin s ts k n lo hi x Hs Hk HL Hx) as (v & -> & LV & _). rewrite map2_fin, !nsum_fin. cbn [toR]. rewrite nmul_fin. apply (f_equal Fin).
  subst n. clear. induction v as [|y v IH]; cbn; [ring|]. rewrite IH. ring.
Qed.
Lemma lin_einsum s ts k n lo hi cs xs : s = KB \/ s = KLogX -> (1 <= k)%nat -> (1 <= n)%nat -> length ts = (n + k)%nat -> length cs = n -> (logx s = true -> Forall (fun x => 0 < x) xs) ->
  einsum (design s (map Fin ts) k n (Fin lo) (Fin hi) (map Fin xs)) (map Fin cs) = Ok (map Fin (map (lin s ts k n lo hi cs) xs)).
Proof.
  intros Hs Hk Hn HL HC Hx. rewrite einsum_design by (auto; rewrite map_length; auto). apply (f_equal Ok). rewrite !map_map. apply map_ext_in. intros x Hi.
  apply lin_fin; auto. intros L. specialize (Hx L). rewrite Forall_forall in Hx. auto.
Qed.
Lemma lin_project sp s ts k n lo hi cs xs : s = KB \/ s = KLogX -> (1 <= k)%nat -> (1 <= n)%nat -> length ts = (n + k)%nat -> length cs = n -> (logx s = true -> Forall (fun x => 0 < x) xs) ->
  sp_kind sp = s -> sp_knots sp = map Fin ts -> sp_order sp = k -> sp_N sp = n -> sp_lo sp = Fin lo -> sp_hi sp = Fin hi -> sp_normalize sp = false ->
  project sp (bases sp (map Fin xs)) (map Fin cs) = Ok (map Fin (map (lin s ts k n lo hi cs) xs)).
Proof.
  intros Hs Hk Hn HL HC Hx K1 K2 K3 K4 K5 K6 K7. rewrite project_other by (rewrite K1; destruct Hs as [->| ->]; discriminate). unfold bases. rewrite K1, K2, K3, K4, K5, K6.
  unfold project_raw. rewrite lin_einsum by auto. cbn [rbind]. rewrite norm_off by auto. cbn [rbind]. replace (logy s) with false by (destruct Hs as [->| ->]; auto). rewrite map_mul_1. reflexivity.
Qed.

(** ** trapezoids *)
Lemma trapezoid_const c xs : xs <> [] -> trapezoid xs (map (fun _ => c) xs) = c * (nth (length xs - 1) xs 0 - nth 0 xs 0).
Proof.
  induction xs as [|x0 xs IH]; intros H; [congruence|]. destruct xs as [|x1 xs]; [cbn; ring|].
  change (trapezoid (x0 :: x1 :: xs) (map (fun _ => c) (x0 :: x1 :: xs))) with ((x1 - x0) * (c + c) / 2 + trapezoid (x1 :: xs) (map (fun _ => c) (x1 :: xs))).
  rewrite IH by discriminate. change (length (x0 :: x1 :: xs)) with (S (length (x1 :: xs))). rewrite Nat.sub_succ, Nat.sub_0_r.
  change (nth 0 (x1 :: xs) 0) with x1. change (nth 0 (x0 :: x1 :: xs) 0) with x0. change (length (x1 :: xs)) with (S (length xs)). rewrite Nat.sub_succ, Nat.sub_0_r.
  change (nth (S (length xs)) (x0 :: x1 :: xs) 0) with (nth (length xs) (x1 :: xs) 0). lra.
Qed.
Lemma rlinspace_last a b n : (2 <= n)%nat -> nth (n - 1) (rlinspace a b n) 0 = b.
Proof. intros H. rewrite rlinspace_nth by lia. field. apply not_0_INR. lia. Qed.
Lemma rlinspace_first a b n : (1 <= n)%nat -> nth 0 (rlinspace a b n) 0 = a.
Proof. intros H. rewrite rlinspace_nth by lia. cbn. ring. Qed.
Lemma trapezoid_const_lin c a b n : (2 <= n)%nat -> trapezoid (rlinspace a b n) (map (fun _ => c) (rlinspace a b n)) = c * (b - a).
Proof.
  intros H. rewrite trapezoid_const.
  - rewrite rlinspace_length, rlinspace_last, rlinspace_first by lia. auto.
  - intros E. apply (f_equal (@length R)) in E. rewrite rlinspace_length in E. cbn in E. lia.
Qed.
Lemma grid_pos a b n (f : R -> R) : (2 <= n)%nat -> a < b -> (forall z, a <= z <= b -> 0 <= f z) -> (exists z, In z (rlinspace a b n) /\ 0 < f z) ->
  0 < trapezoid (rlinspace a b n) (map f (rlinspace a b n)).
Proof.
  intros Hn HA HF (z & HZ & PZ). apply trapezoid_pos_some; [apply rlinspace_increasing; auto|rewrite rlinspace_length; auto|rewrite map_length; auto| |].
  - intros y Hy. apply in_map_iff in Hy as (x & <- & Hx). apply HF. eapply rlinspace_range; eauto. lra.
  - exists (f z). split; auto. apply in_map; auto.
Qed.
Lemma in_last a b n : (2 <= n)%nat -> In b (rlinspace a b n).
Proof. intros H. rewrite <- (rlinspace_last a b n H) at 1. apply nth_In. rewrite rlinspace_length. lia. Qed.
Lemma two_thousand : (2 <= 1000)%nat. Proof. apply (Nat.leb_le 2 1000). reflexivity. Qed.
Lemma unit_by_norm xs (f : R -> R) : trapezoid xs (map f xs) <> 0 -> trapezoid xs (map (fun x => f x / trapezoid xs (map f xs)) xs) = 1.
Proof. intros H. rewrite <- (map_map f (fun y => y / trapezoid xs (map f xs))). rewrite trapezoid_div. field. auto. Qed.
Lemma map2_same_l {A B} (f : A -> A -> B) l : map2 f l l = map (fun x => f x x) l.
Proof. induction l; cbn; auto. rewrite IHl. auto. Qed.
Lemma map2_maps {A B D E} (f : B -> D -> E) (g : A -> B) (h : A -> D) l : map2 f (map g l) (map h l) = map (fun x => f (g x) (h x)) l.
Proof. rewrite map2_map, map2_same_l. auto. Qed.

(** ** BSplineRedshift *)
Lemma grid_ends p0 pe i0 inj : nmax (nminl (Fin p0) (map Fin pe)) (nminl (Fin i0) (map Fin inj)) = Fin (grid_lo p0 pe i0 inj) /\
  nmin (nmaxl (Fin p0) (map Fin pe)) (nmaxl (Fin i0) (map Fin inj)) = Fin (grid_hi p0 pe i0 inj).
Proof.
  pose proof (redshift_init_fin (fun x => x) p0 pe i0 inj) as H. unfold redshift_model_init in H. split.
  - apply (f_equal zm_min) in H. exact H.
  - apply (f_equal zm_max) in H. exact H.
Qed.

Section BRedshift.
Variables (dVcdz : num -> num) (v : R -> R) (s : skind) (deg n : nat) (lo hi : R) (p0 : R) (pe : list R) (i0 : R) (inj : list R) (dVdc dVdc_inj : list num).
Let a := grid_lo p0 pe i0 inj.
Let b := grid_hi p0 pe i0 inj.
Let grid := rlinspace a b 1000.
Hypothesis Hs : s = KB \/ s = KLogX.
Hypothesis Hn : (deg + 1 <= n)%nat.
Hypothesis HR : valid_range s lo hi.
Hypothesis Hab : -1 < a < b.
Hypothesis Hlog : logx s = true -> 0 < a /\ Forall (fun z => 0 < z) (p0 :: pe) /\ Forall (fun z => 0 < z) (i0 :: inj).
Hypothesis Hz : Forall (fun z => -1 < z) (p0 :: pe) /\ Forall (fun z => -1 < z) (i0 :: inj).
Hypothesis HV : forall z, -1 < z -> dVcdz (Fin z) = Fin (v z).
Hypothesis Hv : forall z, a <= z <= b -> 0 <= v z.
Hypothesis Hb : 0 < v b.
Hypothesis HD : dVdc = map dVcdz (map Fin (p0 :: pe)) /\ dVdc_inj = map dVcdz (map Fin (i0 :: inj)).

Let ts := uniform (coord s lo) (coord s hi) n (deg + 1).
Let e := lin s ts (deg + 1) n (coord s lo) (coord s hi).
Let f cs z := v z / (1 + z) * exp (e cs z).

Lemma norm_positive cs : 0 < trapezoid grid (map (f cs) grid).
Proof.
  apply grid_pos; [apply two_thousand|lra| |].
  - intros z HZ. unfold f. apply Rmult_le_pos; [|left; apply exp_pos]. apply Rmult_le_pos; [auto|]. left. apply Rinv_0_lt_compat. lra.
  - exists b. split; [apply in_last; apply two_thousand|]. unfold f. apply Rmult_lt_0_compat; [apply Rdiv_lt_0_compat; [auto|lra]|apply exp_pos].
Qed.

Section Built.
Variables (nrm : bool) (m : mz) (sp : spline).
Hypothesis HM : make_redshift dVcdz (Fin hi) (Opts (Some s) (Some (Fin lo, Fin hi)) (Some deg) None None (Some nrm)) n (Fin p0) (map Fin pe) (Fin i0) (map Fin inj) dVdc dVdc_inj = Ok m.
Hypothesis HSP : make_spline s n (deg + 1) None None (Fin lo) (Fin hi) nrm = Ok sp.
Let r := in_range (Fin lo) (Fin hi).
Lemma built : m = let x := Fin p0 :: map Fin pe in let y := Fin i0 :: map Fin inj in
   MZ (M1D sp (map r x) (map r y) (bases sp (select (map r x) x)) (bases sp (select (map r y) y))) (map Fin grid) (map dVcdz (map Fin grid)) (bases sp (map Fin grid)) x y dVdc dVdc_inj.
Proof.
  unfold make_redshift in HM. unfold make_m1d in HM. cbn [o_basis o_range o_degree o_knots o_interior o_normalize dflt] in HM. rewrite HSP in HM. cbn [rbind] in HM.
  destruct (grid_ends p0 pe i0 inj) as [E1 E2]. rewrite E1, E2 in HM. rewrite nlinspace_fin in HM by apply two_thousand. cbv zeta in HM. symmetry. apply Ok_inj. exact HM.
Qed.
Lemma norm_value cs : length cs = n -> z_normalization m (map Fin cs) = Ok (Fin (trapezoid grid (map (f cs) grid))).
Proof.
  intros HC. rewrite built. cbv zeta. unfold z_normalization. cbn [r_bases r_dV r_grid].
  destruct (make_default s n (deg + 1) lo hi nrm ltac:(lia) HR) as (sp' & E & K1 & K2 & K3 & K4 & K5 & K6 & K7). rewrite HSP in E. injection E as <-.
  assert (GR : forall z, In z grid -> a <= z <= b) by (intros z H; eapply rlinspace_range; eauto; lra).
  unfold bases. rewrite K1, K2, K3, K4, K5, K6. rewrite lin_einsum; auto; try lia; [| |].
  - cbn [rbind]. apply (f_equal Ok). rewrite <- ntrapz_fin. f_equal. rewrite !map_map. rewrite !map2_maps. apply map_ext_in. intros z HZ. specialize (GR z HZ).
    rewrite HV, nadd_fin, ndiv_fin, nexp_fin, nmul_fin by lra. reflexivity.
  - apply uniform_length; lia || apply coord_lt; auto.
  - intros L. apply Forall_forall. intros z HZ. specialize (GR z HZ). destruct (Hlog L). lra.
Qed.
End Built.

Lemma samples_fin sel : samples (Fin p0 :: map Fin pe) (Fin i0 :: map Fin inj) sel = map Fin (all_samples p0 pe i0 inj sel).
Proof. destruct sel; reflexivity. Qed.

(** shared tail of the call *)
Lemma rate_value m nrm sp cs sel (E : R -> R) : make_spline s n (deg + 1) None None (Fin lo) (Fin hi) nrm = Ok sp ->
  make_redshift dVcdz (Fin hi) (Opts (Some s) (Some (Fin lo, Fin hi)) (Some deg) None None (Some nrm)) n (Fin p0) (map Fin pe) (Fin i0) (map Fin inj) dVdc dVdc_inj = Ok m ->
  length cs = n -> m1d_call (r_model m) (map Fin cs) sel = Ok (map Fin (map E (all_samples p0 pe i0 inj sel))) ->
  redshift_rate m (map Fin cs) sel = Ok (map Fin (map (fun z => exp (E z) * v z / (1 + z) / trapezoid grid (map (f cs) grid)) (all_samples p0 pe i0 inj sel))).
Proof.
  intros HSP HM HC HE. unfold redshift_rate. rewrite HE. cbn [rbind]. rewrite (norm_value nrm m sp HM HSP cs HC). cbn [rbind]. pose proof (norm_positive cs) as NP. clear HE.
  rewrite (built nrm m sp HM HSP). cbv zeta. cbn [r_dVdc r_z r_dVdc_inj r_zinj]. destruct HD as [HD1 HD2].
  assert (P : forall z, In z (all_samples p0 pe i0 inj sel) -> -1 < z).
  { destruct Hz as [H1 H2]. rewrite Forall_forall in H1, H2. destruct sel; cbn [all_samples]; auto. }
  assert (G : map (fun w => ndiv w (Fin (trapezoid grid (map (f cs) grid)))) (map2 (fun w zz => ndiv w (nadd (Fin 1) zz)) (map2 (fun w d => nmul (nexp w) d) (map Fin (map E (all_samples p0 pe i0 inj sel))) (map dVcdz (map Fin (all_samples p0 pe i0 inj sel)))) (map Fin (all_samples p0 pe i0 inj sel)))
    = map Fin (map (fun z => exp (E z) * v z / (1 + z) / trapezoid grid (map (f cs) grid)) (all_samples p0 pe i0 inj sel))).
  { rewrite !map_map. rewrite map2_maps, map2_maps, !map_map. apply map_ext_in. intros z HZ. specialize (P z HZ). rewrite HV, nexp_fin, nmul_fin, nadd_fin, !ndiv_fin by lra. reflexivity. }
  destruct sel; cbn [all_samples] in *; [rewrite HD1|rewrite HD2]; apply (f_equal Ok); exact G.
Qed.

(** C37: a basis built with normalize=False *)
Lemma redshift_unnormalised m cs sel : 
  make_redshift dVcdz (Fin hi) (Opts (Some s) (Some (Fin lo, Fin hi)) (Some deg) None None (Some false)) n (Fin p0) (map Fin pe) (Fin i0) (map Fin inj) dVdc dVdc_inj = Ok m ->
  length cs = n ->
  exists rate, redshift_rate m (map Fin cs) sel = Ok (map Fin (map rate (all_samples p0 pe i0 inj sel))) /\ trapezoid grid (map rate grid) = 1 /\
    (forall z, (z < lo \/ hi < z) -> (logx s = true -> 0 < z) -> -1 < z -> 0 < v z -> 0 < rate z) /\
    (forall z, rate z = exp (e cs z) * v z / (1 + z) / trapezoid grid (map (f cs) grid)).
Proof.
  intros HM HC. destruct (make_default s n (deg + 1) lo hi false ltac:(lia) HR) as (sp & ES & K1 & K2 & K3 & K4 & K5 & K6 & K7).
  pose proof (coord_lt _ _ _ HR) as HCO.
  assert (PS : logx s = true -> Forall (fun x => 0 < x) (all_samples p0 pe i0 inj sel)) by (intros L; destruct (Hlog L) as (_ & G1 & G2); destruct sel; auto).
  assert (LT : length ts = (n + (deg + 1))%nat) by (apply uniform_length).
  exists (fun z => exp (e cs z) * v z / (1 + z) / trapezoid grid (map (f cs) grid)). pose proof (norm_positive cs) as NP. split; [|split; [|split; [|reflexivity]]].
  - apply (rate_value m false sp cs sel (e cs) ES HM HC).
    assert (HM1 : make_m1d KLogX (Fin (1 / 10 ^ 4), Fin hi) (Opts (Some s) (Some (Fin lo, Fin hi)) (Some deg) None None (Some false)) n (Fin p0 :: map Fin pe) (Fin i0 :: map Fin inj) = Ok (r_model m)).
    { unfold make_redshift in HM. destruct (make_m1d _ _ _ _ _ _) as [q|]; [|discriminate]. cbn [rbind] in HM. apply Ok_inj in HM. rewrite <- HM. reflexivity. }
    destruct (m1d_points _ _ _ _ _ _ _ (map Fin cs) HM1 ltac:(lia) ltac:(rewrite map_length; auto)) as (sp' & V & HS' & HV' & HP).
    cbn [o_basis o_range o_degree o_knots o_interior o_normalize dflt fst snd] in *. rewrite ES in HS'. injection HS' as <-. rewrite HP, samples_fin, !map_map. apply (f_equal Ok).
    apply map_ext_in. intros z HZ. assert (LZ : logx s = true -> 0 < z) by (intros L; specialize (PS L); rewrite Forall_forall in PS; auto).
    destruct (in_range _ _ _) eqn:EI.
    + specialize (HV' (Fin z :: nil)). unfold eval in HV'. change (Fin z :: nil) with (map Fin (z :: nil)) in HV' at 1. rewrite (lin_project sp s ts (deg + 1) n (coord s lo) (coord s hi) cs (z :: nil) Hs ltac:(lia) ltac:(lia) LT HC) in HV'; [ |intros L; constructor; auto|exact K1|exact K6|exact K3|exact K2|exact K4|exact K5|exact K7].
      cbn [map] in HV'. injection HV' as <-. reflexivity.
    + apply (f_equal Fin). symmetry. apply lin_out; auto; [lia|].
      assert (NI : ~ inside lo hi (Fin z)) by (intros I; apply in_range_inside in I; congruence).
      destruct (Rlt_dec z lo) as [L1|L1]; [left|destruct (Rlt_dec hi z) as [L2|L2]; [right|exfalso; apply NI; exists z; split; auto; lra]].
      * unfold coord. destruct (logx s); auto. specialize (LZ eq_refl). apply ln_increasing; auto.
      * unfold coord. destruct HR as [R1 R2]. destruct (logx s); auto. specialize (R2 eq_refl). apply ln_increasing; lra.
  - transitivity (trapezoid grid (map (fun z => f cs z / trapezoid grid (map (f cs) grid)) grid)); [|apply unit_by_norm; lra].
    f_equal. apply map_ext_in. intros z HZ. unfold f. unfold Rdiv. ring.
  - intros z HO HL HZ PV. assert (Z : e cs z = 0).
    { apply lin_out; auto; [lia|]. unfold coord. destruct HR as [R1 R2]. destruct (logx s); auto. specialize (HL eq_refl). specialize (R2 eq_refl). destruct HO; [left|right]; apply ln_increasing; lra. }
    rewrite Z, exp_0. apply Rdiv_lt_0_compat; auto. apply Rdiv_lt_0_compat; lra.
Qed.

(** a normalised basis: with all coefficients equal to c the result is off by exp(1/(hi-lo) - c) *)
Lemma redshift_normalised_off m c sel : (1 <= deg)%nat -> wide_range s n (deg + 1) lo hi -> lo <= a -> b <= hi -> c <> 0 ->
  (forall z, In z (all_samples p0 pe i0 inj sel) -> lo <= z <= hi) ->
  make_redshift dVcdz (Fin hi) (Opts (Some s) (Some (Fin lo, Fin hi)) (Some deg) None None (Some true)) n (Fin p0) (map Fin pe) (Fin i0) (map Fin inj) dVdc dVdc_inj = Ok m ->
  exists rate, redshift_rate m (map Fin (repeat c n)) sel = Ok (map Fin (map rate (all_samples p0 pe i0 inj sel))) /\ trapezoid grid (map rate grid) = exp (1 / (hi - lo) - c).
Proof.
  intros Hd HW HLA HBH Hc HIN HM. destruct (make_default s n (deg + 1) lo hi true ltac:(lia) HR) as (sp & ES & K1 & K2 & K3 & K4 & K5 & K6 & K7).
  pose proof (coord_lt _ _ _ HR) as HCO. assert (LT : length ts = (n + (deg + 1))%nat) by (apply uniform_length). assert (LC : length (repeat c n) = n) by apply repeat_length.
  assert (EC : forall z, lo <= z <= hi -> lin s ts (deg + 1) n (coord s lo) (coord s hi) (repeat c n) z = c).
  { intros z HZ. destruct (unity s n (deg + 1) lo hi true Hs ltac:(lia) HR HW) as (sp' & E & U). rewrite ES in E. injection E as <-.
    specialize (U (z :: nil) 0%nat ltac:(cbn; lia) HZ ltac:(left; lia)). unfold bases in U. rewrite K1, K2, K3, K4, K5, K6, design_col in U by (cbn; lia). change (nth 0 (map Fin (z :: nil)) NaN) with (Fin z) in U.
    apply Fin_inj. rewrite lin_const; auto; [|lia|].
    - unfold column. fold ts in U. rewrite U, nmul_fin. apply (f_equal Fin). ring.
    - intros L. destruct HR as [_ R2]. specialize (R2 L). lra. }
  assert (SK : s <> KBasis) by (destruct Hs as [->| ->]; discriminate). assert (LY : logy s = false) by (destruct Hs as [->| ->]; auto).
  assert (Eval : forall z, lo <= z <= hi -> eval sp (Fin z :: nil) (map Fin (repeat c n)) = Ok (Fin (1 / (hi - lo)) :: nil)).
  { intros z HZ. unfold eval. rewrite project_other by (rewrite K1; auto). rewrite norm_other by (rewrite ?K1; auto). unfold bases.
    pose proof (grid_real _ _ _ _ _ _ _ _ ES HR) as GR. destruct (make_inv _ _ _ _ _ _ _ _ _ ES) as (ks & l' & h' & g' & vols & LK & EQ & EG & _).
    assert (GB : sp_grid_bases sp = design s (map Fin ts) (deg + 1) n (Fin (coord s lo)) (Fin (coord s hi)) (map Fin (rlinspace lo hi (grid_size s)))).
    { rewrite EQ in *. cbn [sp_grid_bases sp_grid sp_lo sp_hi sp_knots] in *. rewrite GR, K4, K5, K6. reflexivity. }
    rewrite GB, GR, K1, K2, K3, K4, K5, K6. fold ts. change (Fin z :: nil) with (map Fin (z :: nil)). unfold project_raw. rewrite LY.
    destruct HR as [R1 R2].
    assert (CE : forall xs, (forall x, In x xs -> lo <= x <= hi) -> einsum (design s (map Fin ts) (deg + 1) n (Fin (coord s lo)) (Fin (coord s hi)) (map Fin xs)) (map Fin (repeat c n)) = Ok (map Fin (map (fun _ => c) xs))).
    { intros xs HX. rewrite lin_einsum; auto; try lia.
      - apply (f_equal (fun l => Ok (map Fin l))). apply map_ext_in. intros x Hx. apply EC. auto.
      - intros L. apply Forall_forall. intros x Hx. specialize (HX x Hx). specialize (R2 L). lra. }
    rewrite (CE (z :: nil)) by (intros x [<-|[]]; auto). cbn [rbind]. rewrite CE by (intros x Hx; apply rlinspace_range in Hx; lra). cbn [rbind].
    rewrite ntrapz_fin, trapezoid_const_lin by apply grid_size_pos. cbn [map]. rewrite ndiv_fin, nmul_fin by (apply Rmult_integral_contrapositive; split; lra).
    do 3 f_equal. field. split; lra. }
  exists (fun z => exp (1 / (hi - lo)) * v z / (1 + z) / trapezoid grid (map (f (repeat c n)) grid)). split.
  - apply (rate_value m true sp (repeat c n) sel (fun _ => 1 / (hi - lo)) ES HM LC).
    assert (HM1 : make_m1d KLogX (Fin (1 / 10 ^ 4), Fin hi) (Opts (Some s) (Some (Fin lo, Fin hi)) (Some deg) None None (Some true)) n (Fin p0 :: map Fin pe) (Fin i0 :: map Fin inj) = Ok (r_model m)).
    { unfold make_redshift in HM. destruct (make_m1d _ _ _ _ _ _) as [q|]; [|discriminate]. cbn [rbind] in HM. apply Ok_inj in HM. rewrite <- HM. reflexivity. }
    destruct (m1d_points _ _ _ _ _ _ _ (map Fin (repeat c n)) HM1 ltac:(lia) ltac:(rewrite map_length; auto)) as (sp' & V & HS' & HV' & HP).
    cbn [o_basis o_range o_degree o_knots o_interior o_normalize dflt fst snd] in *. rewrite ES in HS'. injection HS' as <-. rewrite HP, samples_fin, !map_map. apply (f_equal Ok).
    apply map_ext_in. intros z HZ. specialize (HIN z HZ).
    assert (EI : in_range (Fin lo) (Fin hi) (Fin z) = true) by (apply in_range_inside; exists z; auto). rewrite EI.
    specialize (HV' (Fin z :: nil)). rewrite Eval in HV' by auto. cbn [map] in HV'. injection HV' as <-. reflexivity.
  - set (T := trapezoid grid (map (fun z => v z / (1 + z)) grid)).
    assert (GR : forall z, In z grid -> lo <= z <= hi) by (intros z HZ; apply rlinspace_range in HZ; lra).
    assert (NT : trapezoid grid (map (f (repeat c n)) grid) = exp c * T).
    { unfold T. rewrite <- trapezoid_scal, map_map. f_equal. apply map_ext_in. intros z HZ. unfold f, e. rewrite EC by auto. ring. }
    pose proof (norm_positive (repeat c n)) as NP. rewrite NT in *.
    transitivity (exp (1 / (hi - lo)) / (exp c * T) * T).
    + unfold T at 3. rewrite <- trapezoid_scal, map_map. f_equal. apply map_ext_in. intros z HZ. unfold Rdiv. ring.
    + unfold Rminus at 2. rewrite exp_plus, exp_Ropp. field. pose proof (exp_pos c). split; [lra|]. intros Z. rewrite Z in NP. lra.
Qed.
End BRedshift.
