(** One-dimensional and separable B-spline models. *)
From Verif Require Export PBSplineGauge SpecBSplines.
Open Scope R_scope.

Lemma scatter_select {A} (r : A -> bool) (V : A -> num) xs : scatter (map r xs) (map V (select (map r xs) xs)) = map (fun x => if r x then V x else Fin 0) xs.
Proof. induction xs as [|x xs IH]; auto. cbn [map select scatter]. destruct (r x); cbn [map]; rewrite IH; auto. Qed.

(** projection acts point by point *)
Lemma project_points s n k kn0 int a b nrm sp cs : make_spline s n k kn0 int a b nrm = Ok sp -> (1 <= n)%nat -> length cs = n ->
  exists V, forall xs, project sp (bases sp xs) cs = Ok (map V xs).
Proof.
  intros H Hn HC. destruct (make_inv _ _ _ _ _ _ _ _ _ H) as (ks & lo & hi & grid & vols & LK & ES & EG & EV & _ & _ & _).
  unfold bases. destruct (kind_cases s) as [->|NK].
  - set (c' := map (fun c => ndiv c (nsum cs)) cs). assert (LC : length c' = n) by (unfold c'; rewrite map_length; auto).
    assert (exists q, spline_norm sp c' = Ok q) as [q Q].
    { unfold spline_norm. rewrite ES. cbn [sp_normalize sp_kind sp_vols]. destruct nrm; [|eauto]. rewrite (EV eq_refl eq_refl), map_length. unfold design.
      rewrite map_length, seq_length, LC, Nat.eqb_refl. eauto. }
    exists (fun x => nmul (nsum (map2 nmul (column KBasis ks k n lo hi x) c')) q). intros xs. unfold project. 
    rewrite ES at 1. cbn [sp_kind]. fold c'. rewrite Q. rewrite ES. cbn [sp_kind sp_knots sp_order sp_N sp_lo sp_hi]. rewrite einsum_design by auto. cbn [rbind].
    rewrite map_map. reflexivity.
  - assert (exists q, spline_norm sp cs = Ok q) as [q Q].
    { destruct nrm; [|rewrite norm_off by (rewrite ES; reflexivity); eauto]. rewrite norm_other by (rewrite ES; auto). rewrite ES. cbn [sp_kind sp_grid_bases].
      unfold project_raw. rewrite einsum_design by auto. cbn [rbind]. eauto. }
    exists (fun x => nmul (let e := nsum (map2 nmul (column s ks k n lo hi x) cs) in if logy s then fexp (log_fix e) else e) q). intros xs.
    rewrite project_other by (rewrite ES; auto). rewrite Q. rewrite ES. cbn [sp_kind sp_knots sp_order sp_N sp_lo sp_hi]. unfold project_raw. rewrite einsum_design by auto. cbn [rbind].
    apply f_equal. destruct (logy s); rewrite ?map_map; reflexivity.
Qed.
Lemma project_bad s n k kn0 int a b nrm sp cs xs : make_spline s n k kn0 int a b nrm = Ok sp -> length cs <> n -> project sp (bases sp xs) cs = Err ValueError.
Proof.
  intros H HC. destruct (make_inv _ _ _ _ _ _ _ _ _ H) as (ks & lo & hi & grid & vols & LK & -> & _).
  unfold bases. cbn [sp_kind sp_knots sp_order sp_N sp_lo sp_hi]. destruct (kind_cases s) as [->|NK].
  - unfold project. cbn [sp_kind]. rewrite einsum_bad by (rewrite map_length; auto). reflexivity.
  - rewrite project_other by auto. cbn [sp_kind]. unfold project_raw. rewrite einsum_bad by auto. reflexivity.
Qed.

Lemma in_range_inside lo hi x : in_range (Fin lo) (Fin hi) x = true <-> inside lo hi x.
Proof.
  unfold in_range, inside, nge. rewrite andb_true_iff. destruct x as [v| | |]; cbn.
  - rewrite !Rleb_true. split; [intros; eauto|]. intros (w & E & H). injection E as <-. auto.
  - split; [intros [_ H]; discriminate|intros (w & E & _); discriminate].
  - split; [intros [H _]; discriminate|intros (w & E & _); discriminate].
  - split; [intros [H _]; discriminate|intros (w & E & _); discriminate].
Qed.


(** C35 *)
Lemma m1d_inv basis range o n xx inj m : make_m1d basis range o n xx inj = Ok m ->
  exists sp, make_spline (dflt basis (o_basis o)) n (dflt 3%nat (o_degree o) + 1) (o_knots o) (o_interior o) (fst (dflt range (o_range o))) (snd (dflt range (o_range o)))
      (dflt (default_normalize (dflt basis (o_basis o))) (o_normalize o)) = Ok sp /\
    m = let r := in_range (fst (dflt range (o_range o))) (snd (dflt range (o_range o))) in
        M1D sp (map r xx) (map r inj) (bases sp (select (map r xx) xx)) (bases sp (select (map r inj) inj)).
Proof.
  unfold make_m1d. destruct (dflt range (o_range o)) as [lo hi]. destruct (make_spline _ _ _ _ _ _ _ _) as [sp|]; cbn [rbind]; [|discriminate].
  intros H. injection H as <-. exists sp. split; auto.
Qed.
Lemma m1d_points basis range o n xx inj m coefs : make_m1d basis range o n xx inj = Ok m -> (1 <= n)%nat -> length coefs = n ->
  exists sp V, make_spline (dflt basis (o_basis o)) n (dflt 3%nat (o_degree o) + 1) (o_knots o) (o_interior o) (fst (dflt range (o_range o))) (snd (dflt range (o_range o)))
      (dflt (default_normalize (dflt basis (o_basis o))) (o_normalize o)) = Ok sp /\
    (forall xs, eval sp xs coefs = Ok (map V xs)) /\
    forall pe, m1d_call m coefs pe = Ok (map (fun x => if in_range (fst (dflt range (o_range o))) (snd (dflt range (o_range o))) x then V x else Fin 0) (samples xx inj pe)).
Proof.
  intros H Hn HC. destruct (m1d_inv _ _ _ _ _ _ _ H) as (sp & HS & ->). cbv zeta. destruct (project_points _ _ _ _ _ _ _ _ _ coefs HS Hn HC) as [V HV].
  exists sp, V. split; auto. split; [exact HV|].
  intros [|]; unfold m1d_call, pe_pdf, inj_pdf; cbn [d_sp d_pe d_inj d_valid d_valid_inj samples]; rewrite HV; cbn [rbind]; rewrite scatter_select; reflexivity.
Qed.
Lemma m1d_bad basis range o n xx inj m coefs pe : make_m1d basis range o n xx inj = Ok m -> length coefs <> n -> m1d_call m coefs pe = Err ValueError.
Proof.
  intros H HC. destruct (m1d_inv _ _ _ _ _ _ _ H) as (sp & HS & ->). cbv zeta.
  destruct pe; unfold m1d_call, pe_pdf, inj_pdf; cbn [d_sp d_pe d_inj]; rewrite (project_bad _ _ _ _ _ _ _ _ _ coefs _ HS HC); reflexivity.
Qed.
Lemma nth_map' {A B} (f : A -> B) l i d d' : (i < length l)%nat -> nth i (map f l) d = f (nth i l d').
Proof. intros H. rewrite (nth_indep _ d (f d')) by (rewrite map_length; auto). apply map_nth. Qed.

Lemma model_1d basis range o n xx inj m coefs pe : finite_range range o -> make_m1d basis range o n xx inj = Ok m -> (1 <= n)%nat -> length coefs = n ->
  exists ps, m1d_call m coefs pe = Ok ps /\ length ps = length (samples xx inj pe) /\
    forall i, (i < length (samples xx inj pe))%nat -> density_at basis range o n coefs (nth i (samples xx inj pe) NaN) (nth i ps NaN).
Proof.
  intros (lo & hi & ER) H Hn HC. destruct (m1d_points _ _ _ _ _ _ _ coefs H Hn HC) as (sp & V & HS & HV & HP). rewrite ER in *. cbn [fst snd] in *.
  eexists. split; [apply HP|]. split; [rewrite map_length; auto|]. intros i Hi. rewrite (nth_map' _ _ _ _ NaN) by auto.
  set (x := nth i _ NaN). exists sp, lo, hi. split; auto. split; auto. split.
  - intros IN. apply in_range_inside in IN. rewrite IN. apply HV.
  - intros NI. destruct (in_range _ _ x) eqn:E; auto. apply in_range_inside in E. contradiction.
Qed.

(** C36 *)
Lemma nabs_neg x : nabs (nneg x) = nabs x.
Proof. destruct x; cbn; auto. rewrite Rabs_Ropp. auto. Qed.
Lemma symmetric o n xs ys inj inj' m m' coefs pe : symmetric_chi_effective o n xs inj = Ok m -> symmetric_chi_effective o n ys inj' = Ok m' ->
  map nabs xs = map nabs ys -> map nabs inj = map nabs inj' -> symmetric_call m coefs pe = symmetric_call m' coefs pe.
Proof. intros H1 H2 E1 E2. unfold symmetric_chi_effective in *. rewrite E1, E2 in H1. rewrite H1 in H2. injection H2 as ->. auto. Qed.
Lemma symmetric_half o n xs inj m coefs pe : finite_range (Fin 0, Fin 1) o -> symmetric_chi_effective o n xs inj = Ok m -> (1 <= n)%nat -> length coefs = n ->
  exists ps, symmetric_call m coefs pe = Ok ps /\ length ps = length (samples xs inj pe) /\
    forall i, (i < length (samples xs inj pe))%nat -> exists p, density_at KB (Fin 0, Fin 1) o n coefs (nabs (nth i (samples xs inj pe) NaN)) p /\ nth i ps NaN = nmul (Fin (1 / 2)) p.
Proof.
  intros FR H Hn HC. destruct (model_1d _ _ _ _ _ _ _ coefs pe FR H Hn HC) as (ps & E & L & D).
  assert (ES : samples (map nabs xs) (map nabs inj) pe = map nabs (samples xs inj pe)) by (destruct pe; auto). rewrite ES in *. rewrite map_length in *.
  unfold symmetric_call. rewrite E. cbn [rbind]. eexists. split; [reflexivity|]. split; [rewrite map_length; auto|].
  intros i Hi. exists (nth i ps NaN). specialize (D i Hi). rewrite (nth_map' nabs _ _ _ NaN) in D by auto. split; auto.
  apply (nth_map' (fun v => nmul (Fin (1/2)) v)). lia.
Qed.

(** C38 *)
Lemma map2_nth' {A B C} (f : A -> B -> C) xs ys i a b c : (i < length xs)%nat -> (i < length ys)%nat -> nth i (map2 f xs ys) c = f (nth i xs a) (nth i ys b).
Proof. revert ys i. induction xs as [|x xs IH]; intros [|y ys] [|i]; cbn; intros; try lia; auto. apply IH; lia. Qed.
Lemma nth_map2_len {A B C} (f : A -> B -> C) xs ys n : length xs = n -> length ys = n -> length (map2 f xs ys) = n.
Proof. intros H1 H2. rewrite map2_length, H1, H2. apply Nat.min_id. Qed.

Lemma pair_points s1 s2 r1 r2 o1 o2 n1 n2 x1 i1 x2 i2 m1 m2 c1 c2 pe :
  finite_range r1 o1 -> finite_range r2 o2 -> make_m1d s1 r1 o1 n1 x1 i1 = Ok m1 -> make_m1d s2 r2 o2 n2 x2 i2 = Ok m2 ->
  (1 <= n1)%nat -> (1 <= n2)%nat -> length c1 = n1 -> length c2 = n2 -> length (samples x1 i1 pe) = length (samples x2 i2 pe) ->
  exists ps, pair_call m1 m2 c1 c2 pe = Ok ps /\ length ps = length (samples x1 i1 pe) /\
    forall i, (i < length (samples x1 i1 pe))%nat -> exists p q, density_at s1 r1 o1 n1 c1 (nth i (samples x1 i1 pe) NaN) p /\
       density_at s2 r2 o2 n2 c2 (nth i (samples x2 i2 pe) NaN) q /\ nth i ps NaN = nmul p q.
Proof.
  intros F1 F2 H1 H2 N1 N2 L1 L2 LX. destruct (model_1d _ _ _ _ _ _ _ c1 pe F1 H1 N1 L1) as (p1 & E1 & K1 & D1).
  destruct (model_1d _ _ _ _ _ _ _ c2 pe F2 H2 N2 L2) as (p2 & E2 & K2 & D2). unfold pair_call. rewrite E1, E2. cbn [rbind]. unfold product.
  rewrite K1, K2, LX, Nat.eqb_refl. eexists. split; [reflexivity|]. split; [apply nth_map2_len; lia|].
  intros i Hi. exists (nth i p1 NaN), (nth i p2 NaN). split; [apply D1; lia|]. split; [apply D2; lia|]. apply map2_nth'; lia.
Qed.

Lemma map2_nmul_comm xs ys : map2 nmul xs ys = map2 nmul ys xs.
Proof. revert ys. induction xs as [|x xs IH]; intros [|y ys]; cbn [map2]; auto. rewrite IH, nmul_comm. auto. Qed.
Lemma product_comm xs ys : product xs ys = product ys xs.
Proof. unfold product. rewrite Nat.eqb_sym, map2_nmul_comm. auto. Qed.
Lemma iid_exchange s r o n x1 i1 x2 i2 m1 m2 cs pe : make_m1d s r o n x1 i1 = Ok m1 -> make_m1d s r o n x2 i2 = Ok m2 -> (1 <= n)%nat ->
  iid_call m1 m2 cs pe = iid_call m2 m1 cs pe.
Proof.
  intros H1 H2 Hn. unfold iid_call, pair_call. destruct (Nat.eq_dec (length cs) n) as [L|L].
  - destruct (m1d_points _ _ _ _ _ _ _ cs H1 Hn L) as (_ & V1 & _ & _ & E1). destruct (m1d_points _ _ _ _ _ _ _ cs H2 Hn L) as (_ & V2 & _ & _ & E2).
    rewrite E1, E2. cbn [rbind]. apply product_comm.
  - rewrite (m1d_bad _ _ _ _ _ _ _ _ _ H1 L), (m1d_bad _ _ _ _ _ _ _ _ _ H2 L). reflexivity.
Qed.
Lemma iid_magnitudes_exchange o n a1 a2 i1 i2 ms ms' cs pe : iid_spin_magnitudes o n a1 a2 i1 i2 = Ok ms -> iid_spin_magnitudes o n a2 a1 i2 i1 = Ok ms' -> (1 <= n)%nat ->
  iid_call (fst ms) (snd ms) cs pe = iid_call (fst ms') (snd ms') cs pe.
Proof.
  unfold iid_spin_magnitudes. destruct (spin_magnitude o n a1 i1) as [m1|] eqn:E1; [|discriminate]. destruct (spin_magnitude o n a2 i2) as [m2|] eqn:E2; [|discriminate].
  cbn [rbind]. intros H H' Hn. injection H as <-. injection H' as <-. eapply iid_exchange; eauto.
Qed.
Lemma iid_tilts_exchange o n a1 a2 i1 i2 ms ms' cs pe : iid_spin_tilts o n a1 a2 i1 i2 = Ok ms -> iid_spin_tilts o n a2 a1 i2 i1 = Ok ms' -> (1 <= n)%nat ->
  iid_call (fst ms) (snd ms) cs pe = iid_call (fst ms') (snd ms') cs pe.
Proof.
  unfold iid_spin_tilts. destruct (spin_tilt o n a1 i1) as [m1|] eqn:E1; [|discriminate]. destruct (spin_tilt o n a2 i2) as [m2|] eqn:E2; [|discriminate].
  cbn [rbind]. intros H H' Hn. injection H as <-. injection H' as <-. eapply iid_exchange; eauto.
Qed.

(** products, for the classes built from two spline models *)
Lemma magnitudes_product o1 o2 n1 n2 a1 a2 i1 i2 ms c1 c2 pe : finite_range (Fin 0, Fin 1) o1 -> finite_range (Fin 0, Fin 1) o2 ->
  independent_spin_magnitudes o1 o2 n1 n2 a1 a2 i1 i2 = Ok ms ->
  (1 <= n1)%nat -> (1 <= n2)%nat -> length c1 = n1 -> length c2 = n2 -> length (samples a1 i1 pe) = length (samples a2 i2 pe) ->
  exists ps, pair_call (fst ms) (snd ms) c1 c2 pe = Ok ps /\ length ps = length (samples a1 i1 pe) /\
    forall i, (i < length (samples a1 i1 pe))%nat -> exists p q, density_at KLogY (Fin 0, Fin 1) o1 n1 c1 (nth i (samples a1 i1 pe) NaN) p /\
       density_at KLogY (Fin 0, Fin 1) o2 n2 c2 (nth i (samples a2 i2 pe) NaN) q /\ nth i ps NaN = nmul p q.
Proof.
  intros F1 F2. unfold independent_spin_magnitudes. destruct (spin_magnitude o1 n1 a1 i1) as [m1|] eqn:E1; [|discriminate]. destruct (spin_magnitude o2 n2 a2 i2) as [m2|] eqn:E2; [|discriminate].
  cbn [rbind]. intros H. injection H as <-. intros. eapply pair_points; eauto.
Qed.
Lemma tilts_product o1 o2 n1 n2 a1 a2 i1 i2 ms c1 c2 pe : finite_range (Fin (-1), Fin 1) o1 -> finite_range (Fin (-1), Fin 1) o2 ->
  independent_spin_tilts o1 o2 n1 n2 a1 a2 i1 i2 = Ok ms ->
  (1 <= n1)%nat -> (1 <= n2)%nat -> length c1 = n1 -> length c2 = n2 -> length (samples a1 i1 pe) = length (samples a2 i2 pe) ->
  exists ps, pair_call (fst ms) (snd ms) c1 c2 pe = Ok ps /\ length ps = length (samples a1 i1 pe) /\
    forall i, (i < length (samples a1 i1 pe))%nat -> exists p q, density_at KLogY (Fin (-1), Fin 1) o1 n1 c1 (nth i (samples a1 i1 pe) NaN) p /\
       density_at KLogY (Fin (-1), Fin 1) o2 n2 c2 (nth i (samples a2 i2 pe) NaN) q /\ nth i ps NaN = nmul p q.
Proof.
  intros F1 F2. unfold independent_spin_tilts. destruct (spin_tilt o1 n1 a1 i1) as [m1|] eqn:E1; [|discriminate]. destruct (spin_tilt o2 n2 a2 i2) as [m2|] eqn:E2; [|discriminate].
  cbn [rbind]. intros H. injection H as <-. intros. eapply pair_points; eauto.
Qed.
Lemma effective_product o1 o2 n1 n2 a1 a2 i1 i2 ms c1 c2 pe : finite_range (Fin (-1), Fin 1) o1 -> finite_range (Fin 0, Fin 1) o2 ->
  effective_spin_dims o1 o2 n1 n2 a1 a2 i1 i2 = Ok ms ->
  (1 <= n1)%nat -> (1 <= n2)%nat -> length c1 = n1 -> length c2 = n2 -> length (samples a1 i1 pe) = length (samples a2 i2 pe) ->
  exists ps, pair_call (fst ms) (snd ms) c1 c2 pe = Ok ps /\ length ps = length (samples a1 i1 pe) /\
    forall i, (i < length (samples a1 i1 pe))%nat -> exists p q, density_at KB (Fin (-1), Fin 1) o1 n1 c1 (nth i (samples a1 i1 pe) NaN) p /\
       density_at KB (Fin 0, Fin 1) o2 n2 c2 (nth i (samples a2 i2 pe) NaN) q /\ nth i ps NaN = nmul p q.
Proof.
  intros F1 F2. unfold effective_spin_dims. destruct (chi_effective o1 n1 a1 i1) as [m1|] eqn:E1; [|discriminate]. destruct (chi_precess o2 n2 a2 i2) as [m2|] eqn:E2; [|discriminate].
  cbn [rbind]. intros H. injection H as <-. intros. eapply pair_points; eauto.
Qed.
Lemma iid_product (tilts : bool) o n a1 a2 i1 i2 ms cs pe : let lo := if tilts then -1 else 0 in finite_range (Fin lo, Fin 1) o ->
  (if tilts then iid_spin_tilts else iid_spin_magnitudes) o n a1 a2 i1 i2 = Ok ms ->
  (1 <= n)%nat -> length cs = n -> length (samples a1 i1 pe) = length (samples a2 i2 pe) ->
  exists ps, iid_call (fst ms) (snd ms) cs pe = Ok ps /\ length ps = length (samples a1 i1 pe) /\
    forall i, (i < length (samples a1 i1 pe))%nat -> exists p q, density_at KLogY (Fin lo, Fin 1) o n cs (nth i (samples a1 i1 pe) NaN) p /\
       density_at KLogY (Fin lo, Fin 1) o n cs (nth i (samples a2 i2 pe) NaN) q /\ nth i ps NaN = nmul p q.
Proof. intros lo F H Hn HC HL. unfold iid_call. destruct tilts; [eapply tilts_product|eapply magnitudes_product]; eauto. Qed.

Lemma primary_ratio_product o1 o2 n1 n2 m1 m1i q qi mmax m1min m2min ms c1 c2 pe :
  finite_range (m1min, mmax) o1 -> finite_range (ndiv m2min mmax, Fin 1) o2 -> primary_ratio o1 o2 n1 n2 m1 m1i q qi mmax m1min m2min = Ok ms ->
  (1 <= n1)%nat -> (1 <= n2)%nat -> length c1 = n1 -> length c2 = n2 -> length (samples m1 m1i pe) = length (samples q qi pe) ->
  exists ps, primary_ratio_call ms c1 c2 pe = Ok ps /\ length ps = length (samples m1 m1i pe) /\
    forall i, (i < length (samples m1 m1i pe))%nat -> exists p r, density_at KLogXLogY (m1min, mmax) o1 n1 c1 (nth i (samples m1 m1i pe) NaN) p /\
       density_at KLogY (ndiv m2min mmax, Fin 1) o2 n2 c2 (nth i (samples q qi pe) NaN) r /\ nth i ps NaN = nmul r p.
Proof.
  intros F1 F2. unfold primary_ratio. destruct (mass_model m1min mmax o1 n1 m1 m1i) as [a|] eqn:E1; [|discriminate]. destruct (ratio_model (ndiv m2min mmax) o2 n2 q qi) as [b|] eqn:E2; [|discriminate].
  cbn [rbind]. intros H N1 N2 L1 L2 LX. injection H as <-. destruct (pair_points _ _ _ _ _ _ _ _ _ _ _ _ _ _ c2 c1 pe F2 F1 E2 E1 N2 N1 L2 L1 (eq_sym LX)) as (ps & E & L & D).
  exists ps. split; [exact E|]. split; [congruence|]. intros i Hi. destruct (D i) as (p & r & D1 & D2 & D3); [congruence|]. exists r, p. auto.
Qed.
(** spline primary with power-law ratio, and power law plus peak with spline ratio *)
Lemma product_points ps qs n (P : nat -> num -> Prop) : length ps = n -> length qs = n -> (forall i, (i < n)%nat -> P i (nth i ps NaN)) ->
  exists rs, product ps qs = Ok rs /\ length rs = n /\ forall i, (i < n)%nat -> exists p, P i p /\ nth i rs NaN = nmul p (nth i qs NaN).
Proof.
  intros L1 L2 HP. unfold product. rewrite L1, L2, Nat.eqb_refl. eexists. split; [reflexivity|]. split; [apply nth_map2_len; auto|].
  intros i Hi. exists (nth i ps NaN). split; auto. apply map2_nth'; lia.
Qed.
Lemma primary_powerlaw_points mmin' mmax o n m1 m1i q qi m beta mmin cs pe : finite_range (mmin', mmax) o -> mass_model mmin' mmax o n m1 m1i = Ok m ->
  (1 <= n)%nat -> length cs = n -> length (samples q qi pe) = length (samples m1 m1i pe) ->
  exists ps, primary_powerlaw_call m (samples m1 m1i pe) (samples q qi pe) beta mmin cs pe = Ok ps /\ length ps = length (samples m1 m1i pe) /\
    forall i, (i < length (samples m1 m1i pe))%nat -> exists p, density_at KLogXLogY (mmin', mmax) o n cs (nth i (samples m1 m1i pe) NaN) p /\
      nth i ps NaN = nmul p (powerlaw_pdf (nth i (samples q qi pe) NaN) beta (ndiv mmin (nth i (samples m1 m1i pe) NaN)) (Fin 1) (Fin 0)).
Proof.
  intros F H Hn HC HL. destruct (model_1d _ _ _ _ _ _ _ cs pe F H Hn HC) as (p & E & L & D). unfold primary_powerlaw_call. rewrite E. cbn [rbind].
  destruct (product_points p (map2 (fun qq mm => powerlaw_pdf qq beta (ndiv mmin mm) (Fin 1) (Fin 0)) (samples q qi pe) (samples m1 m1i pe)) (length (samples m1 m1i pe)) (fun i => density_at KLogXLogY (mmin', mmax) o n cs (nth i (samples m1 m1i pe) NaN))) as (rs & E2 & L2 & D2); auto.
  { apply nth_map2_len; auto. }
  exists rs. split; auto. split; auto. intros i Hi. destruct (D2 i Hi) as (v & A & B). exists v. split; auto. rewrite B. apply f_equal.
  apply (map2_nth' (fun qq mm => powerlaw_pdf qq beta (ndiv mmin mm) (Fin 1) (Fin 0))); lia.
Qed.
Lemma plpeak_ratio_points qmin o n q qi m m1 alpha mmin mmax mpp sigpp lam cs pe : finite_range (qmin, Fin 1) o -> ratio_model qmin o n q qi = Ok m ->
  (1 <= n)%nat -> length cs = n -> length m1 = length (samples q qi pe) ->
  exists ps, plpeak_ratio_call m m1 alpha mmin mmax mpp sigpp lam cs pe = Ok ps /\ length ps = length m1 /\
    forall i, (i < length m1)%nat -> exists p, density_at KLogY (qmin, Fin 1) o n cs (nth i (samples q qi pe) NaN) p /\
      nth i ps NaN = nmul p (plpeak_primary_pdf (nth i m1 NaN) alpha mmin mmax mpp sigpp lam None).
Proof.
  intros F H Hn HC HL. destruct (model_1d _ _ _ _ _ _ _ cs pe F H Hn HC) as (p & E & L & D). unfold plpeak_ratio_call. rewrite E. cbn [rbind].
  rewrite product_comm. set (g := fun mm => plpeak_primary_pdf mm alpha mmin mmax mpp sigpp lam None).
  destruct (product_points p (map g m1) (length m1) (fun i => density_at KLogY (qmin, Fin 1) o n cs (nth i (samples q qi pe) NaN))) as (rs & E2 & L2 & D2); auto.
  { congruence. } { apply map_length. } { intros i Hi. apply D. congruence. }
  exists rs. split; auto. split; auto. intros i Hi. destruct (D2 i Hi) as (v & A & B). exists v. split; auto. rewrite B. apply f_equal. apply (nth_map' g). auto.
Qed.

(** component masses *)
Lemma components_points (iid : bool) o1 o2 n1 n2 a1 b1 a2 b2 x1 x2 i1 i2 m c1 c2 beta pe :
  finite_range (a1, b1) o1 -> finite_range (a2, b2) o2 -> independent_component_masses o1 o2 n1 n2 a1 b1 a2 b2 x1 x2 i1 i2 = Ok m -> (iid = true -> c1 = c2) ->
  (1 <= n1)%nat -> (1 <= n2)%nat -> length c1 = n1 -> length c2 = n2 -> length (samples x1 i1 pe) = length (samples x2 i2 pe) ->
  exists ps, (if iid then iid_masses_call m c1 beta pe else independent_masses_call m c1 c2 beta pe) = Ok ps /\ length ps = length (samples x1 i1 pe) /\
    forall i, (i < length (samples x1 i1 pe))%nat -> exists p q, density_at KLogXLogY (a1, b1) o1 n1 c1 (nth i (samples x1 i1 pe) NaN) p /\
       density_at KLogXLogY (a2, b2) o2 n2 c2 (nth i (samples x2 i2 pe) NaN) q /\
       let r := ndiv (nth i (samples x2 i2 pe) NaN) (nth i (samples x1 i1 pe) NaN) in
       nth i ps NaN = nmul (if iid then nwhere (nlt r (Fin 0) || ngt r (Fin 1)) (Fin 0) (nmul p q) else nmul p q) (npow r beta).
Proof.
  intros F1 F2. unfold independent_component_masses. destruct (mass_model a1 b1 o1 n1 x1 i1) as [u|] eqn:E1; [|discriminate]. destruct (mass_model a2 b2 o2 n2 x2 i2) as [v|] eqn:E2; [|discriminate].
  cbn [rbind]. intros H HI N1 N2 L1 L2 LX. injection H as <-. destruct (pair_points _ _ _ _ _ _ _ _ _ _ _ _ _ _ c1 c2 pe F1 F2 E1 E2 N1 N2 L1 L2 LX) as (ps & E & L & D).
  set (N := length (samples x1 i1 pe)) in *.
  assert (EQ : (if pe then map2 ndiv x2 x1 else map2 ndiv i2 i1) = map2 ndiv (samples x2 i2 pe) (samples x1 i1 pe)) by (destruct pe; auto).
  assert (LQ : length (map2 ndiv (samples x2 i2 pe) (samples x1 i1 pe)) = N) by (apply nth_map2_len; auto).
  destruct iid.
  - specialize (HI eq_refl). subst c2. unfold iid_masses_call. cbn [c_m1 c_m2 c_q c_qinj]. rewrite E. cbn [rbind]. rewrite EQ. eexists. split; [reflexivity|]. split; [apply nth_map2_len; auto|].
    intros i Hi. destruct (D i Hi) as (p & q & A & B & G). exists p, q. split; auto. split; auto. cbv zeta. rewrite (map2_nth' _ _ _ _ NaN NaN) by lia. rewrite G, (map2_nth' ndiv _ _ _ NaN NaN) by lia. reflexivity.
  - unfold independent_masses_call. cbn [c_m1 c_m2 c_q c_qinj]. rewrite E. cbn [rbind]. rewrite EQ. eexists. split; [reflexivity|]. split; [apply nth_map2_len; auto|].
    intros i Hi. destruct (D i Hi) as (p & q & A & B & G). exists p, q. split; auto. split; auto. cbv zeta. rewrite (map2_nth' _ _ _ _ NaN NaN) by lia. rewrite G, (map2_nth' ndiv _ _ _ NaN NaN) by lia. reflexivity.
Qed.
Lemma iid_masses_zero o n a b x1 x2 i1 i2 m cs beta pe ps i m1 m2 : finite_range (a, b) o -> iid_component_masses o n a b x1 x2 i1 i2 = Ok m ->
  (1 <= n)%nat -> length cs = n -> length (samples x1 i1 pe) = length (samples x2 i2 pe) -> iid_masses_call m cs (Fin beta) pe = Ok ps ->
  (i < length (samples x1 i1 pe))%nat -> nth i (samples x1 i1 pe) NaN = Fin m1 -> nth i (samples x2 i2 pe) NaN = Fin m2 -> 0 < m1 < m2 -> nth i ps NaN = Fin 0.
Proof.
  intros F H Hn HC HL HP Hi E1 E2 HM. destruct (components_points true _ _ _ _ _ _ _ _ _ _ _ _ _ cs cs (Fin beta) pe F F H (fun _ => eq_refl) Hn Hn HC HC HL) as (ps' & E & L & D).
  cbv iota in *. rewrite HP in E. injection E as <-. destruct (D i Hi) as (p & q & _ & _ & G). cbv zeta in G. rewrite E1, E2 in G.
  assert (1 < m2 / m1) by (apply (Rmult_lt_reg_r m1); [lra|]; unfold Rdiv; rewrite Rmult_assoc, Rinv_l by lra; lra).
  rewrite ndiv_fin in G by lra. unfold ngt in G. cbn [nlt] in G. rewrite (Rltb_t 1), orb_true_r in G by auto. cbn [nwhere] in G. rewrite npow_fin, nmul_fin in G by lra. rewrite G. apply (f_equal Fin). ring.
Qed.
Lemma density_log x p c n (a b : R) : valid_range KLogXLogY a b -> wide_range KLogXLogY n 4 a b -> (4 <= n)%nat -> length c = n -> (forall v, In v c -> - FMAX < v) -> a <= x <= b ->
  density_at KLogXLogY (Fin a, Fin b) no_opts n (map Fin c) (Fin x) p -> exists v, p = Fin v /\ 0 < v.
Proof.
  intros HV HW Hn HC HB HX (sp & lo & hi & ER & ES & IN & _). cbn [dflt no_opts o_range o_basis o_degree o_knots o_interior o_normalize default_normalize] in *. injection ER as <- <-. change (3 + 1)%nat with 4%nat in ES.
  destruct (log_unit KLogXLogY n 4 a b eq_refl ltac:(lia) HV HW c HC HB) as (sp' & f & E & _ & EV & P & _). rewrite ES in E. injection E as <-.
  specialize (EV (x :: nil)). cbn [map] in EV. rewrite IN in EV by (exists x; auto). injection EV as ->. exists (f x). split; auto.
Qed.
Lemma independent_masses_positive n1 n2 a1 b1 a2 b2 x1 x2 i1 i2 m c1 c2 beta pe ps i m1 m2 :
  valid_range KLogXLogY a1 b1 -> wide_range KLogXLogY n1 4 a1 b1 -> valid_range KLogXLogY a2 b2 -> wide_range KLogXLogY n2 4 a2 b2 ->
  independent_component_masses no_opts no_opts n1 n2 (Fin a1) (Fin b1) (Fin a2) (Fin b2) x1 x2 i1 i2 = Ok m ->
  (4 <= n1)%nat -> (4 <= n2)%nat -> length c1 = n1 -> length c2 = n2 -> (forall v, In v c1 -> - FMAX < v) -> (forall v, In v c2 -> - FMAX < v) ->
  length (samples x1 i1 pe) = length (samples x2 i2 pe) -> independent_masses_call m (map Fin c1) (map Fin c2) (Fin beta) pe = Ok ps ->
  (i < length (samples x1 i1 pe))%nat -> nth i (samples x1 i1 pe) NaN = Fin m1 -> nth i (samples x2 i2 pe) NaN = Fin m2 -> a1 <= m1 <= b1 -> a2 <= m2 <= b2 -> m1 < m2 ->
  exists v, nth i ps NaN = Fin v /\ 0 < v.
Proof.
  intros V1 W1 V2 W2 H N1 N2 L1 L2 B1 B2 HL HP Hi E1 E2 I1 I2 HM.
  destruct (components_points false no_opts no_opts n1 n2 (Fin a1) (Fin b1) (Fin a2) (Fin b2) x1 x2 i1 i2 m (map Fin c1) (map Fin c2) (Fin beta) pe) as (ps' & E & L & D); auto; try lia; try discriminate; try (rewrite map_length; auto).
  { exists a1, b1. reflexivity. } { exists a2, b2. reflexivity. }
  cbv iota in *. rewrite HP in E. injection E as <-. destruct (D i Hi) as (p & q & DP & DQ & G). cbv zeta in G. rewrite E1, E2 in *.
  apply density_log in DP as (v & -> & PV); auto. apply density_log in DQ as (w & -> & PW); auto. pose proof (proj2 V1 eq_refl). pose proof (proj2 V2 eq_refl).
  assert (0 < m2 / m1) by (apply Rdiv_lt_0_compat; lra). rewrite ndiv_fin, npow_fin, !nmul_fin in G by lra. rewrite G. eexists. split; [reflexivity|]. unfold Rpower. pose proof (exp_pos (beta * ln (m2 / m1))). repeat apply Rmult_lt_0_compat; auto.
Qed.
