(** Queries on a flat cosmology: round trip, call histories, queries beyond the table. *)
From Verif Require Export Interp PCosmologyTab.
Open Scope R_scope.

Lemma nmaxl_fin' x l : nmaxl (Fin x) (map Fin l) = Fin (fold_left Rmax l x).
Proof.
  revert x; induction l as [|y l IH]; intros x; [reflexivity|]. unfold nmaxl in *. cbn [map fold_left]. replace (nmax (Fin x) (Fin y)) with (Fin (Rmax x y)); [apply IH|].
  unfold nmax, nle. unfold Rmax. destruct (Rle_dec x y); [rewrite Rleb_t by auto|rewrite Rleb_f by lra]; reflexivity.
Qed.
Lemma fold_max_le l : forall x b, x <= b -> (forall y, In y l -> y <= b) -> fold_left Rmax l x <= b.
Proof. induction l as [|y l IH]; intros x b Hx H; cbn [fold_left]; auto. apply IH; [apply Rmax_lub; auto; apply H; left; auto|intros; apply H; right; auto]. Qed.
Lemma fold_max_ge l : forall x y, y = x \/ In y l -> y <= fold_left Rmax l x.
Proof.
  induction l as [|a l IH]; intros x y [->|H]; cbn [fold_left]; try (destruct H; fail); [lra| |].
  - eapply Rle_trans; [apply (Rmax_l x a)|]. apply IH. auto.
  - destruct H as [->|H]; [eapply Rle_trans; [apply (Rmax_r x y)|]; apply IH; auto|]. apply IH. auto.
Qed.
Lemma amax_fin l : l <> [] -> exists m, amax (map Fin l) = Ok (Fin m) /\ (forall b, (forall y, In y l -> y <= b) -> m <= b) /\ (forall y, In y l -> y <= m).
Proof.
  destruct l as [|x l]; [congruence|]. intros _. exists (fold_left Rmax l x). cbn [map amax]. rewrite nmaxl_fin'. split; [auto|]. split.
  - intros b H. apply fold_max_le; [apply H; left; auto|intros; apply H; right; auto].
  - intros y [->|H]; apply fold_max_ge; auto.
Qed.
Lemma in_le_last l y : increasing l -> In y l -> y <= last l 0.
Proof. destruct l; [intros _ []|]. apply increasing_le_last. Qed.
Lemma last_in' (l : list R) : l <> [] -> In (last l 0) l.
Proof. destruct l; [congruence|]. intros _. apply last_in. Qed.
Lemma amax_incr l : l <> [] -> increasing l -> amax (map Fin l) = Ok (Fin (last l 0)).
Proof.
  intros Hn Hi. destruct (amax_fin l Hn) as (m & -> & U & Lo). do 2 f_equal. apply Rle_antisym; [apply U; intros; apply in_le_last; auto|apply Lo, last_in'; auto].
Qed.

(** interpolation inside the first part of a longer table *)
Lemma rinterp_in_prefix x xs : forall ys xs' ys', length ys = length xs -> increasing (xs ++ xs') -> xs <> [] -> length ys' = length xs' -> hd 0 xs <= x <= last xs 0 ->
  rinterp_in x (xs ++ xs') (ys ++ ys') = rinterp_in x xs ys.
Proof.
  induction xs as [|x0 xs IH]; intros ys xs' ys' Hl Hi Hn Hl' Hx; [congruence|]. destruct ys as [|y0 ys]; [discriminate|].
  destruct xs as [|x1 xs].
  - destruct ys; [|discriminate]. cbn [hd last app] in *. assert (E : x = x0) by lra. rewrite E. rewrite rinterp_in_left by auto. reflexivity.
  - destruct ys as [|y1 ys]; [discriminate|]. cbn [app] in *. rewrite !rinterp_in_unfold. rcase; [reflexivity|]. apply (IH (y1 :: ys) xs' ys'); auto; try discriminate.
    + apply (increasing_tl _ _ Hi).
    + cbn [hd]. split; [lra|]. apply Hx.
Qed.
Lemma rinterp_prefix x xs ys xs' ys' : length ys = length xs -> increasing (xs ++ xs') -> xs <> [] -> length ys' = length xs' -> x <= last xs 0 ->
  rinterp x (xs ++ xs') (ys ++ ys') = rinterp x xs ys.
Proof.
  intros Hl Hi Hn Hl' Hx. destruct xs as [|x0 xs]; [congruence|]. destruct ys as [|y0 ys]; [discriminate|]. cbn [app]. unfold rinterp. rcase; [reflexivity|].
  apply (rinterp_in_prefix x (x0 :: xs) (y0 :: ys)); auto; try discriminate; cbn [hd]; auto.
Qed.
Lemma tab_split {A} (g : nat -> A) n m : (n <= m)%nat -> map g (seq 0 m) = map g (seq 0 n) ++ map g (seq n (m - n)).
Proof. intros H. replace m with (n + (m - n))%nat at 1 by lia. rewrite seq_app, map_app. reflexivity. Qed.
Lemma tab_last g n : (1 <= n)%nat -> last (map g (seq 0 n)) 0 = g (n - 1)%nat.
Proof. intros H. destruct n as [|n]; [lia|]. rewrite seq_S, map_app. cbn [map]. rewrite last_last. replace (S n - 1)%nat with n by lia. reflexivity. Qed.
Lemma tab_ne (g : nat -> R) n : (1 <= n)%nat -> map g (seq 0 n) <> [].
Proof. intros H E. apply (f_equal (@length R)) in E. rewrite map_length, seq_length in E. cbn in E. lia. Qed.
Lemma tab_len (g h : nat -> R) n : length (map g (seq 0 n)) = length (map h (seq 0 n)).
Proof. rewrite !map_length. reflexivity. Qed.
Lemma tab_hd g n : (1 <= n)%nat -> hd 0 (map g (seq 0 n)) = g 0%nat.
Proof. intros H. destruct n; [lia|]. reflexivity. Qed.
Lemma tab_prefix g h n m x : (1 <= n)%nat -> (n <= m)%nat -> (forall i, g i < g (S i)) -> x <= g (n - 1)%nat ->
  rinterp x (map g (seq 0 m)) (map h (seq 0 m)) = rinterp x (map g (seq 0 n)) (map h (seq 0 n)).
Proof.
  intros Hn Hm Hg Hx. rewrite (tab_split g n m Hm), (tab_split h n m Hm). apply rinterp_prefix; [apply tab_len| |apply tab_ne; auto|rewrite !map_length; auto|rewrite tab_last; auto].
  rewrite <- tab_split by auto. apply tab_increasing; auto.
Qed.

Section Flat.
Variables ho om orad ol : R.
Hypothesis HF : flat ho om orad ol.
Variable dz : R.
Hypothesis Hdz : 0 < dz.
Notation f := (comoving_rate ho om orad).
Notation D := (Dr ho om orad dz).
Notation V := (Vr ho om orad dz).
Notation LL := (L ho om orad dz).
Notation tab := (table ho om orad ol dz).
Definition zi i := INR i * dz.
Lemma zi_step i : zi i < zi (S i). Proof. unfold zi. rewrite S_INR. lra. Qed.
Lemma zi_0 : zi 0 = 0. Proof. unfold zi. cbn. ring. Qed.
Lemma zi_mono n m : (n <= m)%nat -> zi n <= zi m.
Proof. induction 1; [lra|]. pose proof (zi_step m). lra. Qed.
Lemma L_lt i : LL i < LL (S i). Proof. eapply L_step; eauto. Qed.
Lemma L_mono n m : (n <= m)%nat -> LL n <= LL m.
Proof. induction 1; [lra|]. pose proof (L_lt m). lra. Qed.
Lemma L_0 : LL 0 = 0. Proof. unfold L. cbn. ring. Qed.
Lemma cz_tab n : cz (tab n) = map Fin (map zi (seq 0 n)). Proof. reflexivity. Qed.
Lemma cDc_tab n : cDc (tab n) = map Fin (map D (seq 0 n)). Proof. reflexivity. Qed.
Lemma cDL_tab n : cDL (tab n) = map Fin (map LL (seq 0 n)). Proof. apply DL_table. Qed.
Lemma zinc n : increasing (map zi (seq 0 n)). Proof. apply tab_increasing, zi_step. Qed.
Lemma Linc n : increasing (map LL (seq 0 n)). Proof. apply tab_increasing, L_lt. Qed.

(** a query below the end of the table leaves it unchanged *)
Lemma no_extend n zs d : (1 <= n)%nat -> zs <> [] -> (forall z, In z zs -> z <= zi (n - 1)) -> maybe_extend (tab n) (map Fin zs) d = Ok (tab n).
Proof.
  intros Hn Hz H. unfold maybe_extend. destruct (amax_fin zs Hz) as (m & -> & U & _). cbn [rbind]. rewrite cz_tab, amax_incr by (try apply tab_ne; auto using zinc). cbn [rbind].
  rewrite tab_last by auto. unfold ngt, nlt. rewrite Rltb_f; [reflexivity|]. apply U. auto.
Qed.
Definition Dof n z := rinterp z (map zi (seq 0 n)) (map D (seq 0 n)).
Definition Lof n z := rinterp z (map zi (seq 0 n)) (map LL (seq 0 n)).
Definition Zof n d := rinterp d (map LL (seq 0 n)) (map zi (seq 0 n)).
Lemma interp_D n zs : map (fun z => ninterp z (cz (tab n)) (cDc (tab n))) (map Fin zs) = map Fin (map (Dof n) zs).
Proof. rewrite !map_map. apply map_ext. intros z. rewrite cz_tab, cDc_tab. apply ninterp_fin, zinc. Qed.
Lemma interp_L n zs : map (fun z => ninterp z (cz (tab n)) (cDL (tab n))) (map Fin zs) = map Fin (map (Lof n) zs).
Proof. rewrite !map_map. apply map_ext. intros z. rewrite cz_tab, cDL_tab. apply ninterp_fin, zinc. Qed.
Lemma interp_Z n zs : map (fun z => ninterp z (cDL (tab n)) (cz (tab n))) (map Fin zs) = map Fin (map (Zof n) zs).
Proof. rewrite !map_map. apply map_ext. intros z. rewrite cz_tab, cDL_tab. apply ninterp_fin, Linc. Qed.
Lemma z2Dc_in n zs d : (1 <= n)%nat -> zs <> [] -> (forall z, In z zs -> z <= zi (n - 1)) -> z2Dc (tab n) (map Fin zs) d = Ok (map Fin (map (Dof n) zs), tab n).
Proof. intros. unfold z2Dc. rewrite no_extend by auto. cbn [rbind]. rewrite interp_D. reflexivity. Qed.
Lemma z2DL_in n zs d : (1 <= n)%nat -> zs <> [] -> (forall z, In z zs -> z <= zi (n - 1)) -> z2DL (tab n) (map Fin zs) d = Ok (map Fin (map (Lof n) zs), tab n).
Proof. intros. unfold z2DL. rewrite no_extend by auto. cbn [rbind]. rewrite interp_L. reflexivity. Qed.
Lemma DL2z_in n ds d : (1 <= n)%nat -> ds <> [] -> (forall z, In z ds -> z <= LL (n - 1)) -> DL2z (tab n) (map Fin ds) d = Ok (map Fin (map (Zof n) ds), tab n).
Proof.
  intros Hn Hd H. unfold DL2z. destruct (amax_fin ds Hd) as (m & -> & U & _). cbn [rbind]. rewrite cDL_tab at 1. rewrite amax_incr by (try apply tab_ne; auto using Linc). cbn [rbind].
  rewrite tab_last by auto. unfold ngt, nlt. rewrite Rltb_f by (apply U; auto). rewrite interp_Z. reflexivity.
Qed.
Lemma DL2z_out n ds d : (1 <= n)%nat -> (exists z, In z ds /\ LL (n - 1) < z) -> DL2z (tab n) (map Fin ds) d = Err TypeError.
Proof.
  intros Hn (z & Hz & Hgt). unfold DL2z. destruct (amax_fin ds) as (m & -> & _ & U); [intros E; rewrite E in Hz; destruct Hz|]. cbn [rbind]. rewrite cDL_tab at 1. rewrite amax_incr by (try apply tab_ne; auto using Linc). cbn [rbind].
  rewrite tab_last by auto. unfold ngt, nlt. rewrite Rltb_t; [reflexivity|]. specialize (U _ Hz). lra.
Qed.

(** C44 *)
Lemma Lof_range n z : (1 <= n)%nat -> 0 <= Lof n z <= LL (n - 1).
Proof.
  intros Hn. unfold Lof. apply rinterp_between; try apply tab_ne; auto using zinc. intros y Hy. apply in_map_iff in Hy. destruct Hy as (i & <- & Hi). apply in_seq in Hi.
  rewrite <- L_0. split; apply L_mono; lia.
Qed.
Lemma Zof_range n z : (1 <= n)%nat -> 0 <= Zof n z <= zi (n - 1).
Proof.
  intros Hn. unfold Zof. apply rinterp_between; try apply tab_ne; auto using Linc. intros y Hy. apply in_map_iff in Hy. destruct Hy as (i & <- & Hi). apply in_seq in Hi.
  rewrite <- zi_0. split; apply zi_mono; lia.
Qed.
Lemma Z_L n z : (1 <= n)%nat -> 0 <= z <= zi (n - 1) -> Zof n (Lof n z) = z.
Proof.
  intros Hn Hz. unfold Zof, Lof. apply rinterp_inv; auto using tab_ne, tab_len, zinc, Linc. rewrite tab_hd, tab_last, zi_0 by auto. auto.
Qed.
Lemma L_Z n d : (1 <= n)%nat -> 0 <= d <= LL (n - 1) -> Lof n (Zof n d) = d.
Proof.
  intros Hn Hz. unfold Zof, Lof. apply rinterp_inv; auto using tab_ne, tab_len, zinc, Linc. rewrite tab_hd, tab_last, L_0 by auto. auto.
Qed.
Lemma map_id_on {A} (g : A -> A) l : (forall x, In x l -> g x = x) -> map g l = l.
Proof. intros H. rewrite <- (map_id l) at 2. apply map_ext_in. auto. Qed.
Lemma round_trip_tab n step : (1 <= n)%nat ->
  (forall zs, zs <> [] -> (forall z, In z zs -> 0 <= z <= zi (n - 1)) ->
    exists ds, z2DL (tab n) (map Fin zs) step = Ok (map Fin ds, tab n) /\ DL2z (tab n) (map Fin ds) step = Ok (map Fin zs, tab n)) /\
  (forall ds, ds <> [] -> (forall d, In d ds -> 0 <= d <= LL (n - 1)) ->
    exists zs, DL2z (tab n) (map Fin ds) step = Ok (map Fin zs, tab n) /\ z2DL (tab n) (map Fin zs) step = Ok (map Fin ds, tab n)).
Proof.
  intros Hn. split.
  - intros zs Hz H. exists (map (Lof n) zs). rewrite z2DL_in by (auto; intros; apply H; auto). split; [reflexivity|].
    rewrite DL2z_in; auto; [|destruct zs; [congruence|discriminate]|intros z Hi; apply in_map_iff in Hi; destruct Hi as (w & <- & _); apply Lof_range; auto].
    do 3 f_equal. rewrite map_map. apply map_id_on. intros. apply Z_L; auto.
  - intros zs Hz H. exists (map (Zof n) zs). rewrite DL2z_in by (auto; intros; apply H; auto). split; [reflexivity|].
    rewrite z2DL_in; auto; [|destruct zs; [congruence|discriminate]|intros z Hi; apply in_map_iff in Hi; destruct Hi as (w & <- & _); apply Zof_range; auto].
    do 3 f_equal. rewrite map_map. apply map_id_on. intros. apply L_Z; auto.
Qed.

(** C45 *)
Lemma points_ge n m zmax : (1 <= n)%nat -> zi (n - 1) < zmax -> grid_points zmax dz m -> (n <= m)%nat.
Proof.
  intros Hn Hz (Hm & G1 & G2). destruct (Nat.le_gt_cases n m) as [|Hlt]; auto. exfalso. assert (zi m <= zi (n - 1)) by (apply zi_mono; lia). unfold zi in *. lra.
Qed.
Lemma ext_step n zs c : (1 <= n)%nat -> maybe_extend (tab n) zs (Fin dz) = Ok c -> exists m, (n <= m)%nat /\ c = tab m.
Proof.
  intros Hn. unfold maybe_extend. destruct (amax zs) as [mz|]; cbn [rbind]; [|discriminate]. rewrite cz_tab, amax_incr by (try apply tab_ne; auto using zinc). cbn [rbind].
  rewrite tab_last by auto. destruct (ngt mz (Fin (zi (n - 1)))) eqn:G; [|intros E; injection E as <-; exists n; auto].
  destruct mz as [mz| | |]; try discriminate. unfold ngt, nlt in G. apply Rltb_true in G.
  destruct (points_exist dz Hdz mz) as [m Hm]; [pose proof (zi_mono 0 (n - 1) ltac:(lia)); rewrite zi_0 in *; lra|].
  rewrite (extend_table _ _ _ _ HF dz Hdz (tab n) mz m (table_params _ _ _ _ _ n) Hm). intros E. injection E as <-. exists m. split; auto. apply (points_ge n m mz); auto.
Qed.
Lemma after_step n q : (1 <= n)%nat -> exists m, (n <= m)%nat /\ after (Fin dz) (tab n) q = tab m.
Proof.
  intros Hn. unfold after.
  assert (G : forall zs, match maybe_extend (tab n) zs (Fin dz) with Ok c => exists m, (n <= m)%nat /\ c = tab m | Err _ => True end).
  { intros zs. destruct (maybe_extend (tab n) zs (Fin dz)) eqn:E; auto. apply (ext_step n zs); auto. }
  destruct q as [zs|zs|zs|zs|ds]; cbn [ask]; unfold dVcdz, logdVcdz, z2Dc, z2DL;
    try (specialize (G zs); destruct (maybe_extend (tab n) zs (Fin dz)) as [c|]; cbn [rbind]; [exact G|exists n; auto]).
  unfold DL2z. destruct (amax ds); cbn [rbind]; [|exists n; auto]. destruct (amax (cDL (tab n))); cbn [rbind]; [|exists n; auto]. destruct (ngt _ _); exists n; auto.
Qed.
Lemma history_step qs : forall n, (1 <= n)%nat -> exists m, (n <= m)%nat /\ history (tab n) qs (Fin dz) = tab m.
Proof.
  induction qs as [|q qs IH]; intros n Hn; [exists n; auto|]. unfold history. cbn [fold_left]. destruct (after_step n q Hn) as (m & Hm & ->).
  destruct (IH m ltac:(lia)) as (k & Hk & E). exists k. split; [lia|exact E].
Qed.
Lemma Dof_prefix n m z : (1 <= n)%nat -> (n <= m)%nat -> z <= zi (n - 1) -> Dof m z = Dof n z.
Proof. intros. apply tab_prefix; auto using zi_step. Qed.
Lemma Lof_prefix n m z : (1 <= n)%nat -> (n <= m)%nat -> z <= zi (n - 1) -> Lof m z = Lof n z.
Proof. intros. apply tab_prefix; auto using zi_step. Qed.
Lemma Zof_prefix n m z : (1 <= n)%nat -> (n <= m)%nat -> z <= LL (n - 1) -> Zof m z = Zof n z.
Proof. intros. apply tab_prefix; auto using L_lt. Qed.
Lemma same_answer n m q : (1 <= n)%nat -> (n <= m)%nat ->
  match q with
  | Qz2Dc zs | Qz2DL zs | QdVcdz zs | QlogdVcdz zs => exists rs, zs = map Fin rs /\ rs <> [] /\ forall z, In z rs -> z <= zi (n - 1)
  | QDL2z ds => exists rs, ds = map Fin rs /\ rs <> [] /\ forall d, In d rs -> d <= LL (n - 1)
  end ->
  exists ans, ask (tab n) q (Fin dz) = Ok (ans, tab n) /\ ask (tab m) q (Fin dz) = Ok (ans, tab m).
Proof.
  intros Hn Hm. assert (Hm1 : (1 <= m)%nat) by lia.
  assert (P : forall rs, (forall z, In z rs -> z <= zi (n - 1)) -> forall z, In z rs -> z <= zi (m - 1)).
  { intros rs H z Hz. specialize (H z Hz). pose proof (zi_mono (n - 1) (m - 1) ltac:(lia)). lra. }
  assert (PL : forall rs, (forall z, In z rs -> z <= LL (n - 1)) -> forall z, In z rs -> z <= LL (m - 1)).
  { intros rs H z Hz. specialize (H z Hz). pose proof (L_mono (n - 1) (m - 1) ltac:(lia)). lra. }
  assert (ED : forall rs, (forall z, In z rs -> z <= zi (n - 1)) -> map (Dof m) rs = map (Dof n) rs).
  { intros rs H. apply map_ext_in. intros z Hz. apply Dof_prefix; auto. }
  destruct q as [zs|zs|zs|zs|ds]; intros (rs & E & Hr & H); rewrite E; cbn [ask]; unfold dVcdz, logdVcdz; (pose proof (P rs H) as H2 || pose proof (PL rs H) as H2).
  - rewrite !z2Dc_in by auto. rewrite ED by auto. eauto.
  - rewrite !z2DL_in by auto. replace (map (Lof m) rs) with (map (Lof n) rs); [eauto|]. apply map_ext_in. intros z Hz. symmetry. apply Lof_prefix; auto.
  - rewrite !z2Dc_in by auto. rewrite ED by auto. cbn [rbind]. eexists. split; reflexivity.
  - rewrite !z2Dc_in by auto. rewrite ED by auto. cbn [rbind]. eexists. split; reflexivity.
  - rewrite !DL2z_in by auto. replace (map (Zof m) rs) with (map (Zof n) rs); [eauto|]. apply map_ext_in. intros z Hz. symmetry. apply Zof_prefix; auto.
Qed.

(** C46 *)
Lemma beyond n z : (1 <= n)%nat -> zi (n - 1) < z -> exists m, (n <= m)%nat /\ (1 <= m)%nat /\ grid_points z dz m /\
  z2Dc (tab n) (map Fin [z; z]) (Fin dz) = Ok (map Fin [D (m - 1); D (m - 1)], tab m) /\
  z2Dc (tab n) (Fin z :: nil) (Fin dz) = Ok (Fin (D (m - 1)) :: nil, tab m) /\
  z2DL (tab n) (Fin z :: nil) (Fin dz) = Ok (Fin (LL (m - 1)) :: nil, tab m) /\
  z2Dc (tab m) (Fin (zi (m - 1)) :: nil) (Fin dz) = Ok (Fin (D (m - 1)) :: nil, tab m).
Proof.
  intros Hn Hz. destruct (points_exist dz Hdz z) as [m Hm]; [pose proof (zi_mono 0 (n - 1) ltac:(lia)) as Q0; rewrite zi_0 in Q0; lra|].
  pose proof (points_ge n m z Hn Hz Hm) as Hnm. assert (Hm1 : (1 <= m)%nat) by lia. exists m. split; auto. split; auto. split; auto.
  assert (X : forall zs, amax zs = Ok (Fin z) -> maybe_extend (tab n) zs (Fin dz) = Ok (tab m)).
  { intros zs E. unfold maybe_extend. rewrite E. cbn [rbind]. rewrite cz_tab, amax_incr by (try apply tab_ne; auto using zinc). cbn [rbind].
    rewrite tab_last by auto. unfold ngt, nlt. rewrite Rltb_t by auto. apply (extend_table _ _ _ _ HF); auto using table_params. }
  assert (EZ : Dof m z = D (m - 1)).
  { unfold Dof. rewrite rinterp_right; [apply tab_last; auto|apply tab_ne; auto|apply tab_len|apply zinc|]. rewrite tab_last by auto. destruct Hm as (_ & Hm & _). unfold zi. lra. }
  assert (EL : Lof m z = LL (m - 1)).
  { unfold Lof. rewrite rinterp_right; [apply tab_last; auto|apply tab_ne; auto|apply tab_len|apply zinc|]. rewrite tab_last by auto. destruct Hm as (_ & Hm & _). unfold zi. lra. }
  repeat split.
  - unfold z2Dc. rewrite X. { cbn [rbind]. rewrite interp_D. cbn [map]. rewrite EZ. reflexivity. }
    cbn [map amax]. unfold nmaxl. cbn [fold_left nmax nle]. destruct (Rleb z z); reflexivity.
  - unfold z2Dc. rewrite X by reflexivity. cbn [rbind]. change (Fin z :: nil) with (map Fin (z :: nil)). rewrite interp_D. cbn [map]. rewrite EZ. reflexivity.
  - unfold z2DL. rewrite X by reflexivity. cbn [rbind]. change (Fin z :: nil) with (map Fin (z :: nil)). rewrite interp_L. cbn [map]. rewrite EL. reflexivity.
  - change (Fin (zi (m - 1)) :: nil) with (map Fin (zi (m - 1) :: nil)). rewrite z2Dc_in; auto; [|discriminate|intros w [<-|[]]; lra].
    cbn [map]. do 4 f_equal. unfold Dof. rewrite rinterp_right; [apply tab_last; auto|apply tab_ne; auto|apply tab_len|apply zinc|]. rewrite tab_last by auto. lra.
Qed.
Lemma beyond_error n z : (1 <= n)%nat -> zi (n - 1) < z -> exists d c I, z2Dc (tab n) (Fin z :: nil) (Fin dz) = Ok (Fin d :: nil, c) /\
  is_RInt f 0 z I /\ Rabs (d - I) <= 3 / 2 * (light / ho * dz).
Proof.
  intros Hn Hz. destruct (beyond n z Hn Hz) as (m & Hnm & Hm1 & Hm & _ & E & _). destruct (D_error_bound _ _ _ _ HF dz Hdz (m - 1)) as (I & HI & HE).
  destruct Hm as (_ & G1 & G2). pose proof (zi_mono 0 (m - 1) ltac:(lia)) as Z0. rewrite zi_0 in Z0. unfold zi in Z0.
  destruct (f_int _ _ _ _ HF (INR (m - 1) * dz) z) as (J & HJ & B1 & B2); auto; [lra|].
  exists (D (m - 1)), (tab m), (I + J). split; auto. split; [apply (is_RInt_ChaslesR f 0 (INR (m - 1) * dz)); auto|].
  pose proof (f_le _ _ _ _ HF (INR (m - 1) * dz) Z0) as F1. pose proof (f_pos _ _ _ _ HF (INR (m - 1) * dz) Z0) as F2. pose proof (f_pos _ _ _ _ HF z ltac:(lra)) as F3.
  assert (W : z - INR (m - 1) * dz <= dz). { replace m with (S (m - 1)) in G2 at 1 by lia. rewrite S_INR in G2. lra. }
  assert (J <= light / ho * dz).
  { eapply Rle_trans; [apply B2|]. apply Rmult_le_compat; lra. }
  assert (0 <= J). { eapply Rle_trans; [|apply B1]. apply Rmult_le_pos; lra. }
  apply Rabs_le_between. apply Rabs_le_between in HE. lra.
Qed.
(** the answer for a redshift beyond the table changes when the table later grows *)
Lemma beyond_changes n z : (1 <= n)%nat -> zi (n - 1) < z -> exists d d' c c' c'', z2Dc (tab n) (Fin z :: nil) (Fin dz) = Ok (Fin d :: nil, c) /\
  c' = history c [Qz2Dc (Fin (z + dz) :: nil)] (Fin dz) /\ z2Dc c' (Fin z :: nil) (Fin dz) = Ok (Fin d' :: nil, c'') /\ d < d'.
Proof.
  intros Hn Hz. destruct (beyond n z Hn Hz) as (m & Hnm & Hm1 & Hm & _ & E & _). pose proof Hm as (_ & G1 & G2).
  destruct (beyond m (z + dz) Hm1) as (k & Hmk & Hk1 & Hk & _ & E' & _); [unfold zi; lra|].
  assert (Hk2 : (m < k)%nat).
  { destruct Hk as (_ & K1 & K2). apply (points_ge (S m) k (z + dz)); [lia| |split; auto]. replace (S m - 1)%nat with (S (m - 1)) by lia. unfold zi. rewrite S_INR. lra. }
  assert (Zk : z <= zi (k - 1)). { pose proof (zi_mono m (k - 1) ltac:(lia)). unfold zi in *. lra. }
  exists (D (m - 1)), (Dof k z), (tab m), (tab k), (tab k). split; auto. split.
  - unfold history. cbn [fold_left]. unfold after. cbn [ask]. rewrite E'. reflexivity.
  - split.
    + change (Fin z :: nil) with (map Fin (z :: nil)). rewrite z2Dc_in; auto; [discriminate|intros w [<-|[]]; auto].
    + assert (EN : Dof k (zi (m - 1)) = D (m - 1)).
      { unfold Dof. rewrite <- (tab_nth zi k (m - 1)) by lia. rewrite rinterp_node; [apply tab_nth; lia|apply tab_len|apply zinc|rewrite map_length, seq_length; lia]. }
      rewrite <- EN. unfold Dof. apply rinterp_mono; auto using tab_ne, tab_len, zinc.
      * apply tab_increasing. intros; eapply D_step; eauto.
      * rewrite tab_hd by auto. apply zi_mono. lia.
      * rewrite tab_last by auto. auto.
Qed.
End Flat.
