(** Projections: unit integral, gauge freedom, out-of-range values. *)
From Verif Require Export PBSplineMake SpecSpline.
Open Scope R_scope.

Definition column (s : skind) (ks : list num) (k n : nat) (lo hi x : num) : list num :=
  map (fun i => basis_value s ks k lo hi i x) (seq 0 n).
Lemma column_length s ks k n lo hi x : length (column s ks k n lo hi x) = n.
Proof. unfold column. rewrite map_length, seq_length. auto. Qed.

Lemma einsum_design s ks k n lo hi xs cs : (1 <= n)%nat -> length cs = n ->
  einsum (design s ks k n lo hi xs) cs = Ok (map (fun x => nsum (map2 nmul (column s ks k n lo hi x) cs)) xs).
Proof.
  intros Hn Hc. unfold einsum. assert (LD : length (design s ks k n lo hi xs) = n) by (unfold design; rewrite map_length, seq_length; auto).
  rewrite LD, Hc, Nat.eqb_refl. apply f_equal.
  assert (LH : length (hd [] (design s ks k n lo hi xs)) = length xs).
  { unfold design. destruct n; [lia|]. cbn [seq map hd]. apply map_length. }
  rewrite LH. apply nth_ext with (d := NaN) (d' := NaN); [rewrite !map_length, seq_length; auto|].
  intros j Hj. rewrite map_length, seq_length in Hj.
  set (f := fun j => nsum _). rewrite (nth_indep _ NaN (f O)) by (rewrite map_length, seq_length; auto). rewrite map_nth, seq_nth by auto. cbn [Nat.add]. unfold f.
  set (g := fun x => nsum _). rewrite (nth_indep _ NaN (g NaN)) by (rewrite map_length; auto). rewrite map_nth. unfold g, column.
  rewrite <- (design_col s ks k n lo hi xs j NaN Hj). rewrite <- (map_id cs) at 2. rewrite map2_map. reflexivity.
Qed.
Lemma einsum_bad s ks k n lo hi xs cs : length cs <> n -> einsum (design s ks k n lo hi xs) cs = Err ValueError.
Proof.
  intros Hc. unfold einsum. assert (LD : length (design s ks k n lo hi xs) = n) by (unfold design; rewrite map_length, seq_length; auto).
  rewrite LD. destruct (Nat.eqb n (length cs)) eqn:E; auto. apply Nat.eqb_eq in E. congruence.
Qed.

(** ** finite sums have finite terms *)
Lemma nadd_fin_inv x y v : nadd x y = Fin v -> exists a b, x = Fin a /\ y = Fin b.
Proof. destruct x, y; cbn; try discriminate; eauto. Qed.
Lemma nmul_fin_inv x y v : nmul x y = Fin v -> exists a b, x = Fin a /\ y = Fin b.
Proof. unfold nmul. destruct x, y; try discriminate; eauto; unfold sinf; repeat destruct (Rltb _ _); cbn; try discriminate. Qed.
Lemma nsum_fin_inv l v : nsum l = Fin v -> exists r, l = map Fin r.
Proof.
  revert v. induction l as [|x l IH]; intros v H; [exists []; auto|]. cbn in H. apply nadd_fin_inv in H as (a & b & -> & H).
  destruct (IH _ H) as [r ->]. exists (a :: r). auto.
Qed.
Lemma map2_nmul_fin_inv xs ys r : length xs = length ys -> map2 nmul xs ys = map Fin r -> exists a b, xs = map Fin a /\ ys = map Fin b.
Proof.
  revert ys r. induction xs as [|x xs IH]; intros [|y ys] [|v r] L H; cbn in *; try discriminate.
  - exists [], []. auto.
  - injection H as H1 H2. injection L as L. apply nmul_fin_inv in H1 as (a & b & -> & ->). destruct (IH _ _ L H2) as (p & q & -> & ->).
    exists (a :: p), (b :: q). auto.
Qed.
Lemma map2_fin a b : map2 nmul (map Fin a) (map Fin b) = map Fin (map2 Rmult a b).
Proof. revert b. induction a as [|x a IH]; intros [|y b]; cbn; auto. rewrite IH. auto. Qed.

Definition toR (x : num) : R := match x with Fin a => a | _ => 0 end.
Lemma toR_map l r : l = map Fin r -> map toR l = r.
Proof. intros ->. rewrite map_map. cbn. apply map_id. Qed.

(** ** linearity of the trapezoid rule *)
Lemma trapezoid_plus gs f g (xs : list num) : trapezoid gs (map (fun x => f x + g x) xs) = trapezoid gs (map f xs) + trapezoid gs (map g xs).
Proof.
  revert xs. induction gs as [|g0 gs IH]; intros xs; [cbn; ring|]. destruct gs as [|g1 gs]; [cbn; destruct xs; cbn; ring|].
  destruct xs as [|x0 [|x1 xs]]; [cbn; ring|cbn; ring|]. specialize (IH (x1 :: xs)). cbn [map] in *. cbn [trapezoid] in *. rewrite IH. lra.
Qed.
Lemma trapezoid_zero gs (xs : list num) : trapezoid gs (map (fun _ => 0) xs) = 0.
Proof.
  revert xs. induction gs as [|g0 gs IH]; intros xs; [cbn; auto|]. destruct gs as [|g1 gs]; [cbn; destruct xs; auto|].
  destruct xs as [|x0 [|x1 xs]]; [auto|auto|]. specialize (IH (x1 :: xs)). cbn [map] in *. cbn [trapezoid] in *. rewrite IH. lra.
Qed.
Lemma trapezoid_comb gs (xs : list num) (F : nat -> num -> R) L cc :
  trapezoid gs (map (fun x => Rlsum (map2 Rmult (map (fun i => F i x) L) cc)) xs) =
  Rlsum (map2 Rmult (map (fun i => trapezoid gs (map (F i) xs)) L) cc).
Proof.
  revert cc. induction L as [|i L IH]; intros cc; [cbn; apply trapezoid_zero|]. destruct cc as [|c cc]; [cbn; apply trapezoid_zero|].
  cbn [map map2 Rlsum]. rewrite (trapezoid_plus gs (fun x => F i x * c)). rewrite IH. f_equal.
  rewrite <- (map_map (F i) (fun y => y * c)). rewrite Rmult_comm, <- trapezoid_scal. f_equal. apply map_ext. intros; ring.
Qed.

Lemma make_inv s n k kn0 int a b nrm sp : make_spline s n k kn0 int a b nrm = Ok sp ->
  exists ks lo hi grid vols, length ks = (n + k)%nat /\
   sp = Spline s n k lo hi ks nrm grid (if nrm then design s ks k n lo hi grid else []) vols /\
   (nrm = true -> grid = (if logx s then nlinspace (nexp lo) (nexp hi) (grid_size s) else nlinspace lo hi (grid_size s))) /\
   (s = KBasis -> nrm = true -> vols = map (fun row => ntrapz row grid) (design s ks k n lo hi grid)) /\
   lo = (if logx s then nlog a else a) /\ hi = (if logx s then nlog b else b) /\
   forall nrm', exists grid' vols', make_spline s n k kn0 int a b nrm' = Ok (Spline s n k lo hi ks nrm' grid' (if nrm' then design s ks k n lo hi grid' else []) vols').
Proof.
  intros H. unfold make_spline in *. destruct (make_knots _ _ _ _ _ _) as [ks|] eqn:EK; [|discriminate]. cbn [rbind] in *.
  destruct (negb _) eqn:EN; [discriminate|]. apply negb_false_iff, Nat.eqb_eq in EN. injection H as <-.
  exists ks. do 4 eexists. split; auto. split; [reflexivity|]. split; [intros ->; reflexivity|]. split; [intros -> ->; reflexivity|].
  split; auto. split; auto. intros nrm'. do 2 eexists. reflexivity.
Qed.

Lemma map_mul_1 l : map (fun v => nmul v (Fin 1)) l = l.
Proof. rewrite (map_ext _ (fun v => v)) by (intros; apply nmul_1_r). apply map_id. Qed.

Lemma project_other sp rows cs : sp_kind sp <> KBasis ->
  project sp rows cs = do p <- project_raw (sp_kind sp) rows cs ; do n <- spline_norm sp cs ; Ok (map (fun v => nmul v n) p).
Proof. intros H. unfold project. destruct (sp_kind sp); try congruence; reflexivity. Qed.
Lemma norm_off sp cs : sp_normalize sp = false -> spline_norm sp cs = Ok (Fin 1).
Proof. intros H. unfold spline_norm. rewrite H. reflexivity. Qed.
Lemma norm_other sp cs : sp_kind sp <> KBasis -> sp_normalize sp = true ->
  spline_norm sp cs = do p <- project_raw (sp_kind sp) (sp_grid_bases sp) cs ; Ok (ndiv (Fin 1) (ntrapz p (sp_grid sp))).
Proof. intros H H2. unfold spline_norm. rewrite H2. destruct (sp_kind sp); try congruence; reflexivity. Qed.
Lemma kind_cases s : s = KBasis \/ s <> KBasis.
Proof. destruct s; auto; right; discriminate. Qed.

Lemma div_mul_map vs I : I <> 0 -> map (fun v => nmul v (ndiv (Fin 1) (Fin I))) (map Fin vs) = map Fin (map (fun v => / I * v) vs).
Proof. intros H. rewrite !map_map. apply map_ext. intros v. rewrite ndiv_fin, nmul_fin by auto. apply (f_equal Fin). unfold Rdiv. ring. Qed.

Lemma grid_size_pos s : (2 <= grid_size s)%nat.
Proof. destruct s; cbn; lia. Qed.

(** C28, any knots: unit integral whenever the unnormalised integral is a non-zero number *)
Lemma unit_integral s n k kn0 int a b sp sp0 cs gs vs :
  make_spline s n k kn0 int a b true = Ok sp -> make_spline s n k kn0 int a b false = Ok sp0 ->
  (1 <= n)%nat -> sp_grid sp = map Fin gs -> eval sp0 (map Fin gs) cs = Ok (map Fin vs) -> trapezoid gs vs <> 0 ->
  exists ps, eval sp (map Fin gs) cs = Ok (map Fin ps) /\ project sp (sp_grid_bases sp) cs = Ok (map Fin ps) /\
    ps = map (fun v => / trapezoid gs vs * v) vs /\ trapezoid gs ps = 1.
Proof.
  intros H1 H0 Hn HG HE HT. destruct (make_inv _ _ _ _ _ _ _ _ _ H1) as (ks & lo & hi & grid & vols & LK & -> & EG & EV & _ & _ & H0').
  destruct (H0' false) as (g' & v' & E0). rewrite H0 in E0. injection E0 as ->. cbn [sp_grid] in HG. subst grid. cbv iota in *.
  unfold eval, bases in *. cbn [sp_kind sp_knots sp_order sp_N sp_lo sp_hi sp_grid_bases] in *. set (D := design s ks k n lo hi (map Fin gs)) in *.
  cut (project (Spline s n k lo hi ks true (map Fin gs) D vols) D cs = Ok (map Fin (map (fun v => / trapezoid gs vs * v) vs))).
  { intros P1. exists (map (fun v => / trapezoid gs vs * v) vs). split; auto. split; auto. split; auto. rewrite trapezoid_scal. apply Rinv_l; auto. }
  destruct (kind_cases s) as [->|NK].
  - unfold project in *. cbn [sp_kind] in *. set (c' := map (fun c => ndiv c (nsum cs)) cs) in *.
    destruct (Nat.eq_dec (length c') n) as [LC|LC].
    2:{ unfold D in HE. rewrite einsum_bad in HE by auto. discriminate. }
    unfold D in HE |- *. rewrite einsum_design in HE |- * by auto. cbn [rbind] in HE |- *. rewrite norm_off in HE by reflexivity. cbn [rbind] in HE.
    rewrite map_mul_1 in HE. injection HE as HE. unfold spline_norm. cbn [sp_normalize sp_kind sp_vols]. specialize (EV eq_refl eq_refl).
    assert (LV : length vols = n) by (rewrite EV; unfold D, design; rewrite !map_length, seq_length; auto). rewrite LV, LC, Nat.eqb_refl. cbn [rbind].
    rewrite HE. 
    (* finiteness *)
    assert (FC : forall x, In x (map Fin gs) -> exists v, nsum (map2 nmul (column KBasis ks k n lo hi x) c') = Fin v).
    { intros x Hx. pose proof (in_map (fun x => nsum (map2 nmul (column KBasis ks k n lo hi x) c')) _ _ Hx) as G. rewrite HE in G. apply in_map_iff in G as (v & <- & _). eauto. }
    assert (FX : forall x, In x (map Fin gs) -> exists p q, column KBasis ks k n lo hi x = map Fin p /\ c' = map Fin q).
    { intros x Hx. destruct (FC x Hx) as [v G]. apply nsum_fin_inv in G as [r G]. apply map2_nmul_fin_inv in G; auto. rewrite column_length. auto. }
    assert (GL : length gs = grid_size KBasis).
    { pose proof (f_equal (@length num) (EG eq_refl)) as G. rewrite map_length in G. rewrite G. cbn [logx]. unfold nlinspace. rewrite map_length, seq_length. reflexivity. }
    destruct gs as [|g0 gr] eqn:EGS; [pose proof (grid_size_pos KBasis); cbn in GL; lia|]. rewrite <- EGS in *.
    destruct (FX (Fin g0)) as (p0 & q & _ & EQ); [rewrite EGS; left; auto|]. rewrite EQ in *.
    set (F := fun i x => toR (basis_value KBasis ks k lo hi i x)).
    assert (FF : forall x i, In x (map Fin gs) -> (i < n)%nat -> basis_value KBasis ks k lo hi i x = Fin (F i x)).
    { intros x i Hx Hi. destruct (FX x Hx) as (p & _ & EP & _). unfold F.
      assert (G : In (basis_value KBasis ks k lo hi i x) (map Fin p)) by (rewrite <- EP; unfold column; apply (in_map (fun i => basis_value KBasis ks k lo hi i x)); apply in_seq; lia).
      apply in_map_iff in G as (r & <- & _). reflexivity. }
    assert (VS : vs = map (fun x => Rlsum (map2 Rmult (map (fun i => F i x) (seq 0 n)) q)) (map Fin gs)).
    { apply (f_equal (map toR)) in HE. rewrite (toR_map (map Fin vs) vs eq_refl) in HE. rewrite <- HE, map_map. apply map_ext_in. intros x Hx.
      unfold column. rewrite (map_ext_in _ (fun i => Fin (F i x))) by (intros i Hi; apply in_seq in Hi; apply FF; [auto|lia]).
      rewrite <- (map_map (fun i => F i x) Fin), map2_fin, nsum_fin. reflexivity. }
    assert (VV : vols = map Fin (map (fun i => trapezoid gs (map (F i) (map Fin gs))) (seq 0 n))).
    { rewrite EV. unfold D, design. rewrite <- ?EGS. rewrite !map_map. apply map_ext_in. intros i Hi. apply in_seq in Hi. rewrite <- ntrapz_fin. f_equal.
      rewrite !map_map. apply map_ext_in. intros g Hg. apply FF; [apply in_map; auto|lia]. }
    rewrite VV, map2_fin, nsum_fin, <- trapezoid_comb, <- VS. rewrite div_mul_map by auto. reflexivity.
  - rewrite project_other by auto. rewrite project_other in HE by auto. cbn [sp_kind] in *.
    destruct (project_raw s D cs) as [p|] eqn:EP; [|discriminate]. cbn [rbind] in *. rewrite norm_off in HE by reflexivity. cbn [rbind] in HE.
    rewrite map_mul_1 in HE. injection HE as ->. rewrite norm_other by auto. cbn [sp_kind sp_grid_bases sp_grid]. rewrite EP. cbn [rbind].
    rewrite ntrapz_fin. rewrite div_mul_map by auto. reflexivity.
Qed.
