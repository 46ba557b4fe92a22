(** Construction of splines, partition of unity of the design matrix, interior knots. *)
From Verif Require Export PBSplineCode SpecSpline.
Open Scope R_scope.

Lemma coord_num s x : (logx s = true -> 0 < x) -> (if logx s then nlog (Fin x) else Fin x) = Fin (coord s x).
Proof. intros H. unfold coord. destruct (logx s); auto. apply nlog_fin; auto. Qed.
Lemma coord_lt s a b : valid_range s a b -> coord s a < coord s b.
Proof. intros [H H2]. unfold coord. destruct (logx s); auto. apply ln_increasing; auto. Qed.

Lemma make_default s n k a b nrm : (1 <= k <= n)%nat -> valid_range s a b ->
  exists sp, make_spline s n k None None (Fin a) (Fin b) nrm = Ok sp /\
    sp_kind sp = s /\ sp_N sp = n /\ sp_order sp = k /\ sp_lo sp = Fin (coord s a) /\ sp_hi sp = Fin (coord s b) /\
    sp_knots sp = map Fin (uniform (coord s a) (coord s b) n k) /\ sp_normalize sp = nrm.
Proof.
  intros HK [HAB HL]. unfold make_spline. cbn [option_map].
  rewrite (coord_num s a), (coord_num s b) by (intros E; specialize (HL E); lra). rewrite default_knots by auto. cbn [rbind].
  rewrite map_length, uniform_length, Nat.eqb_refl. cbn [negb].
  eexists. split; [reflexivity|]. cbn. repeat split; reflexivity.
Qed.
Lemma make_default_fail s n k a b nrm : (n < k)%nat -> exists e, make_spline s n k None None a b nrm = Err e.
Proof.
  intros H. unfold make_spline. cbn [option_map].
  destruct (default_knots_fail n k (if logx s then nlog a else a) (if logx s then nlog b else b) H) as [e ->]. cbn. eauto.
Qed.

Lemma knots_spec s n k a b nrm : (1 <= k)%nat -> valid_range s a b ->
  ((exists sp, make_spline s n k None None (Fin a) (Fin b) nrm = Ok sp) <-> (k <= n)%nat) /\
  forall sp, make_spline s n k None None (Fin a) (Fin b) nrm = Ok sp ->
    exists ts d, sp_knots sp = map Fin ts /\ length ts = (n + k)%nat /\ 0 < d /\
      (forall i, (S i < n + k)%nat -> nth (S i) ts 0 - nth i ts 0 = d) /\
      nth (k - 1) ts 0 = coord s a /\ nth n ts 0 = coord s b.
Proof.
  intros Hk HR. split.
  - split.
    + intros [sp H]. destruct (le_lt_dec k n) as [L|L]; auto. destruct (make_default_fail s n k (Fin a) (Fin b) nrm L) as [e E]. congruence.
    + intros L. destruct (make_default s n k a b nrm ltac:(lia) HR) as (sp & E & _). eauto.
  - intros sp H. destruct (le_lt_dec k n) as [L|L].
    2:{ destruct (make_default_fail s n k (Fin a) (Fin b) nrm L) as [e E]. congruence. }
    destruct (make_default s n k a b nrm ltac:(lia) HR) as (sp' & E & _ & _ & _ & _ & _ & EK & _). rewrite H in E. injection E as <-.
    pose proof (coord_lt s a b HR) as HC.
    exists (uniform (coord s a) (coord s b) n k), ((coord s b - coord s a) / INR (n + 1 - k)).
    split; auto. split; [apply uniform_length|]. split; [apply step_pos; [lia|auto]|]. split.
    + intros i Hi. rewrite uniform_step by lia. ring.
    + split; [apply uniform_lo; lia|apply uniform_hi; lia].
Qed.

(** ** columns of the design matrix *)
Lemma design_col s ks k n lo hi xs j d : (j < length xs)%nat ->
  map (fun row => nth j row d) (design s ks k n lo hi xs) = map (fun i => basis_value s ks k lo hi i (nth j xs d)) (seq 0 n).
Proof.
  intros H. unfold design. rewrite map_map. apply map_ext. intros i.
  rewrite (nth_indep _ d (basis_value s ks k lo hi i d)) by (rewrite map_length; auto). apply map_nth.
Qed.

(** C24 *)
Lemma unity s n k a b nrm : s = KB \/ s = KLogX -> (1 <= k <= n)%nat -> valid_range s a b ->
  1 / 10 ^ 6 <= (coord s b - coord s a) / INR (n + 1 - k) ->
  exists sp, make_spline s n k None None (Fin a) (Fin b) nrm = Ok sp /\
  forall xs j, (j < length xs)%nat -> a <= nth j xs 0 <= b -> (2 <= k)%nat \/ nth j xs 0 < b ->
    nsum (map (fun row => nth j row NaN) (bases sp (map Fin xs))) = Fin 1.
Proof.
  intros Hs HK HR HD. destruct (make_default s n k a b nrm HK HR) as (sp & E & K1 & K2 & K3 & K4 & K5 & K6 & K7).
  exists sp. split; auto. intros xs j Hj HX HE. unfold bases. rewrite K1, K2, K3, K4, K5, K6.
  rewrite design_col by (rewrite map_length; auto).
  rewrite (nth_indep _ NaN (Fin 0)) by (rewrite map_length; auto). rewrite map_nth.
  set (x := nth j xs 0) in *. pose proof (coord_lt s a b HR) as HC. destruct HR as [HAB HL].
  assert (CX : coord s a <= coord s x <= coord s b).
  { unfold coord. destruct (logx s) eqn:LX; auto. specialize (HL eq_refl). split; apply ln_le'; lra. }
  rewrite (map_ext_in _ (fun i => Fin (Bspline (fun j => nth j (uniform (coord s a) (coord s b) n k) 0) k i (coord s x)))).
  - rewrite <- (map_map (fun i => Bspline _ k i _) Fin), nsum_fin. apply (f_equal Fin).
    apply uniform_unity; auto. destruct HE as [HE|HE]; [left; auto|right].
    unfold coord. destruct (logx s); auto. specialize (HL eq_refl). apply ln_increasing; lra.
  - intros i Hi. apply in_seq in Hi. unfold coord in *. 
    rewrite (basis_value_in s _ k _ _ i x); [reflexivity| | |lia| |].
    + apply uniform_spaced; auto.
    + destruct Hs as [->| ->]; discriminate.
    + rewrite uniform_length. lia.
    + destruct (logx s); auto. specialize (HL eq_refl). split; [lra|auto].
Qed.

(** with order one the right end point belongs to no spline; ranges too narrow lose all bases *)
Lemma unity_order_one : exists sp, make_spline KB 2 1 None None (Fin 0) (Fin 1) false = Ok sp /\
  nsum (map (fun row => nth 0 row NaN) (bases sp (Fin 1 :: nil))) = Fin 0.
Proof.
  destruct (make_default KB 2 1 0 1 false ltac:(lia)) as (sp & E & K1 & K2 & K3 & K4 & K5 & K6 & K7); [split; [lra|discriminate]|].
  exists sp. split; auto. unfold bases. rewrite K1, K2, K3, K4, K5, K6. unfold coord. cbn [logx]. rewrite design_col by (cbn; lia).
  change (nth 0 (Fin 1 :: []) NaN) with (Fin 1).
  assert (SK : spaced_knots (uniform 0 1 2 1)) by (apply uniform_spaced; cbn; lra || lia).
  cbn [seq map]. rewrite !(basis_value_in KB (uniform 0 1 2 1)) by (auto; try discriminate; try (rewrite uniform_length; lia); cbn; lra).
  cbn [logx]. set (t := fun j => nth j (uniform 0 1 2 1) 0). 
  rewrite !Bspline_support.
  - cbn. apply (f_equal Fin). ring.
  - intros j Hj. unfold t. rewrite uniform_step by lia. cbn. lra.
  - right. unfold t. rewrite uniform_nth by lia. cbn. lra.
  - intros j Hj. unfold t. rewrite uniform_step by lia. cbn. lra.
  - right. unfold t. rewrite uniform_nth by lia. cbn. lra.
Qed.
Lemma unity_narrow : exists sp x, make_spline KB 4 4 None None (Fin 0) (Fin (1 / 10 ^ 7)) false = Ok sp /\ 0 <= x <= 1 / 10 ^ 7 /\
  nsum (map (fun row => nth 0 row NaN) (bases sp (Fin x :: nil))) = Fin 0.
Proof.
  destruct (make_default KB 4 4 0 (1 / 10 ^ 7) false ltac:(lia)) as (sp & E & K1 & K2 & K3 & K4 & K5 & K6 & K7); [split; [lra|discriminate]|].
  exists sp, (1 / 10 ^ 8). split; auto. split; [lra|]. unfold bases. rewrite K1, K2, K3, K4, K5, K6. unfold coord. cbn [logx]. rewrite design_col by (cbn; lia).
  change (nth 0 (Fin (1 / 10 ^ 8) :: []) NaN) with (Fin (1 / 10 ^ 8)).
  rewrite (map_ext_in _ (fun _ => Fin 0)); [cbn; apply (f_equal Fin); ring|].
  intros i Hi. apply in_seq in Hi. unfold basis_value. cbn [logx]. unfold oob_where, ngt. cbn [nlt]. rewrite !Rltb_f by lra. cbn [orb].
  unfold raw_basis. cbn [basis]. rewrite !kn_fin by (rewrite uniform_length; lia). rewrite !uniform_nth by lia.
  rewrite nsub_fin. cbn [nlt]. rewrite Rltb_t.
  - rewrite ndiv_fin, nmul_fin by (cbn; lra). apply (f_equal Fin). ring.
  - rewrite plus_INR. cbn. lra.
Qed.

(** C25 *)
Lemma textbook s n k ts interior a b nrm : s = KB \/ s = KLogX \/ s = KLogY \/ s = KLogXLogY -> (1 <= k)%nat -> length ts = (n + k)%nat ->
  valid_range s a b -> spaced_knots (map (coord s) ts) -> (logx s = true -> Forall (fun t => 0 < t) ts) ->
  exists sp, make_spline s n k (Some (map Fin ts)) interior (Fin a) (Fin b) nrm = Ok sp /\
  forall xs i j, (j < length xs)%nat -> (i < n)%nat -> a <= nth j xs 0 <= b ->
    exists v, nth j (nth i (bases sp (map Fin xs)) []) NaN = Fin v /\
      v = Bspline (fun m => nth m (map (coord s) ts) 0) k i (coord s (nth j xs 0)) /\ 0 <= v /\
      (coord s (nth j xs 0) < nth i (map (coord s) ts) 0 \/ nth (i + k) (map (coord s) ts) 0 <= coord s (nth j xs 0) -> v = 0).
Proof.
  intros Hs Hk HL [HAB HLX] HT HP. unfold make_spline. cbn [option_map make_knots rbind].
  assert (EK : (if logx s then map nlog (map Fin ts) else map Fin ts) = map Fin (map (coord s) ts)).
  { destruct (logx s) eqn:LX; rewrite ?map_map; unfold coord; rewrite LX; [|reflexivity]. apply map_ext_in. intros t Ht.
    specialize (HP eq_refl). rewrite Forall_forall in HP. apply nlog_fin; auto. }
  rewrite EK, !map_length, HL, Nat.eqb_refl. cbn [negb].
  eexists. split; [reflexivity|]. intros xs i j Hj Hi HX. unfold bases. cbn [sp_kind sp_N sp_order sp_lo sp_hi sp_knots].
  rewrite (coord_num s a), (coord_num s b) by (intros E; specialize (HLX E); lra).
  assert (EN : nth j (nth i (design s (map Fin (map (coord s) ts)) k n (Fin (coord s a)) (Fin (coord s b)) (map Fin xs)) []) NaN =
    basis_value s (map Fin (map (coord s) ts)) k (Fin (coord s a)) (Fin (coord s b)) i (Fin (nth j xs 0))).
  { pose proof (design_col s (map Fin (map (coord s) ts)) k n (Fin (coord s a)) (Fin (coord s b)) (map Fin xs) j NaN ltac:(rewrite map_length; auto)) as G.
    apply (f_equal (fun l => nth i l NaN)) in G. 
    rewrite (nth_indep _ NaN (nth j [] NaN)) in G by (rewrite map_length; unfold design; rewrite map_length, seq_length; auto).
    rewrite (map_nth (fun row => nth j row NaN)) in G. rewrite G.
    rewrite (nth_indep (map _ (seq 0 n)) NaN (basis_value s (map Fin (map (coord s) ts)) k (Fin (coord s a)) (Fin (coord s b)) O (nth j (map Fin xs) NaN))) by (rewrite map_length, seq_length; auto).
    rewrite (map_nth (fun i => basis_value s _ k _ _ i _)), seq_nth by auto. cbn [Nat.add].
    rewrite (nth_indep (map Fin xs) NaN (Fin 0)) by (rewrite map_length; auto). rewrite map_nth. reflexivity. }
  rewrite EN. set (x := nth j xs 0) in *.
  assert (LEN : (i + k < length (map (coord s) ts))%nat) by (rewrite map_length; lia).
  rewrite (basis_value_in s (map (coord s) ts) k _ _ i x HT); auto.
  2:{ destruct Hs as [->|[->|[->| ->]]]; discriminate. }
  2:{ unfold coord. destruct (logx s) eqn:LX; auto. specialize (HLX eq_refl). repeat split; [lra|apply ln_le'; lra|apply ln_le'; lra]. }
  fold (coord s x). eexists. split; [reflexivity|]. split; [reflexivity|].
  assert (HM : forall m, (i <= m < i + k)%nat -> nth m (map (coord s) ts) 0 <= nth (S m) (map (coord s) ts) 0).
  { intros m Hm. destruct (HT m ltac:(lia)); lra. }
  split; [apply Bspline_nonneg; auto|]. intros HO. apply Bspline_support; auto.
Qed.
Lemma zero_out n k knots interior a b nrm sp : make_spline KB n k knots interior (Fin a) (Fin b) nrm = Ok sp ->
  forall xs i j, (j < length xs)%nat -> (i < n)%nat -> nth j xs 0 < a \/ b < nth j xs 0 -> nth j (nth i (bases sp (map Fin xs)) []) NaN = Fin 0.
Proof.
  intros H xs i j Hj Hi HX. unfold make_spline in H. cbn [logx] in H. destruct (make_knots _ _ _ _ _ _) as [ks|]; [|discriminate].
  cbn [rbind] in H. destruct (negb _); [discriminate|]. injection H as <-. unfold bases. cbn [sp_kind sp_N sp_order sp_lo sp_hi sp_knots].
  unfold design. set (f := fun i => map _ _). rewrite (nth_indep _ [] (f O)) by (rewrite map_length, seq_length; auto). rewrite map_nth, seq_nth by auto. cbn [Nat.add]. unfold f.
  rewrite (nth_indep _ NaN (basis_value KB ks k (Fin a) (Fin b) i (Fin 0))) by (rewrite !map_length; auto).
  rewrite (map_nth (basis_value KB ks k (Fin a) (Fin b) i)), map_nth. apply basis_value_out; auto.
Qed.

(** C27 *)
Lemma interior_uniform n k a b nrm : (1 <= k <= n)%nat -> a < b ->
  exists sp, make_spline KB n k None (Some (map Fin (rlinspace a b (n + 2 - k)))) (Fin a) (Fin b) nrm = Ok sp /\
  forall t, In t (rlinspace a b (n + 2 - k)) -> In (Fin t) (sp_knots sp).
Proof.
  intros HK HAB. destruct (make_default KB n k a b nrm HK) as (sp & E & K1 & K2 & K3 & K4 & K5 & K6 & K7); [split; [auto|discriminate]|].
  exists sp. split.
  - rewrite <- E. unfold make_spline, make_knots. cbn [logx option_map].
    assert (EZ : (Z.of_nat n - Z.of_nat k + 2 <? 0)%Z = false) by (apply Z.ltb_ge; lia). rewrite EZ. rewrite (nlinspace_fin a b (n + 2 - k)) by lia. reflexivity.
  - intros t Ht. rewrite K6. apply in_map. apply (In_nth _ _ 0) in Ht as (i & Hi & <-). rewrite rlinspace_length in Hi. rewrite rlinspace_nth by auto.
    unfold coord. cbn [logx]. assert (G : nth (i + (k - 1)) (uniform a b n k) 0 = a + INR i * ((b - a) / INR (n + 2 - k - 1))).
    { rewrite uniform_nth by lia. rewrite plus_INR. replace (n + 2 - k - 1)%nat with (n + 1 - k)%nat by lia. ring. }
    rewrite <- G. apply nth_In. rewrite uniform_length. lia.
Qed.
Lemma interior_ignored : exists sp, make_spline KB 5 4 None (Some (map Fin [0; 1/4; 1])) (Fin 0) (Fin 1) false = Ok sp /\
  ~ In (Fin 0) (sp_knots sp) /\ ~ In (Fin (1/4)) (sp_knots sp) /\ ~ In (Fin 1) (sp_knots sp).
Proof.
  assert (E : exists sp, make_spline KB 5 4 None (Some (map Fin [0; 1/4; 1])) (Fin 0) (Fin 1) false = Ok sp /\
    sp_knots sp = map Fin (rlinspace (- (3 / 4)) (7 / 4) 9)).
  { unfold make_spline, make_knots. cbn [logx option_map map rbind length Nat.add Nat.mul Nat.sub]. rewrite !nsub_fin, !nmul_fin, nsub_fin, nadd_fin.
    replace (0 - (1 / 4 - 0) * INR 3) with (- (3 / 4)) by (cbn; lra). replace (1 + (1 / 4 - 0) * INR 3) with (7 / 4) by (cbn; lra).
    rewrite nlinspace_fin by lia. rewrite map_length, rlinspace_length. cbn [Nat.eqb negb Nat.add]. eexists. split; [reflexivity|]. reflexivity. }
  destruct E as (sp & E & EK). exists sp. split; auto. rewrite EK. unfold rlinspace. replace ((7 / 4 - - (3 / 4)) / INR (9 - 1)) with (5 / 16) by (cbn [Nat.sub]; rewrite INR_IZR_INZ; cbn; lra). cbn [seq map].
  repeat split; intros H; cbn [In] in H; repeat (destruct H as [H|H]; [apply Fin_inj in H; cbn in H; lra|]); destruct H.
Qed.
