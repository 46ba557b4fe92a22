(** Proofs about the gridded distributions of [MNumpyro]. *)
From Verif Require Export Interp PSmoothing MNumpyro SpecNumpyro.
From Verif Require Export Spec.
Open Scope R_scope.

(** ** cumulative integrals *)
Lemma prefix_S xs : forall ys i, (S i < length xs)%nat -> length ys = length xs ->
  prefix_integral xs ys (S i) = prefix_integral xs ys i + (nth (S i) xs 0 - nth i xs 0) * (nth i ys 0 + nth (S i) ys 0) / 2.
Proof.
  induction xs as [|x0 xs IH]; intros ys i Hi Hl; [cbn in Hi; lia|]. destruct ys as [|y0 ys]; [discriminate|].
  destruct xs as [|x1 xs]; [cbn in Hi; lia|]. destruct ys as [|y1 ys]; [discriminate|]. destruct i as [|i].
  - unfold prefix_integral. cbn [firstn trapezoid nth]. destruct (firstn 0 xs) eqn:E; [|discriminate]. cbn. ring.
  - specialize (IH (y1 :: ys) i ltac:(cbn [length] in *; lia) ltac:(cbn [length] in *; lia)). unfold prefix_integral in *. cbn [firstn trapezoid nth] in *. lra.
Qed.
Lemma prefix_0 xs ys : prefix_integral xs ys 0 = 0.
Proof. unfold prefix_integral. destruct xs, ys; reflexivity. Qed.
Lemma prefix_all xs ys : length ys = length xs -> (1 <= length xs)%nat -> prefix_integral xs ys (length xs - 1) = trapezoid xs ys.
Proof. intros Hl H. unfold prefix_integral. replace (S (length xs - 1)) with (length xs) by lia. rewrite firstn_all. rewrite <- Hl, firstn_all. reflexivity. Qed.

Fixpoint ctr (acc : R) (x s : list R) : list R :=
  match x, s with x0 :: ((x1 :: _) as x'), s0 :: ((s1 :: _) as s') => let a := acc + (x1 - x0) * (s0 + s1) / 2 in a :: ctr a x' s' | _, _ => [] end.
Lemma ctr_nth x : forall s acc i, length s = length x -> (i < length x)%nat -> nth i (acc :: ctr acc x s) 0 = acc + prefix_integral x s i.
Proof.
  induction x as [|x0 x IH]; intros s acc i Hl Hi; [cbn in Hi; lia|]. destruct s as [|s0 s]; [discriminate|]. destruct i as [|i]; [cbn [nth]; rewrite prefix_0; ring|].
  destruct x as [|x1 x]; [cbn in Hi; lia|]. destruct s as [|s1 s]; [discriminate|].
  set (a := acc + (x1 - x0) * (s0 + s1) / 2). change (nth i (a :: ctr a (x1 :: x) (s1 :: s)) 0 = acc + prefix_integral (x0 :: x1 :: x) (s0 :: s1 :: s) (S i)). specialize (IH (s1 :: s) a i ltac:(cbn [length] in *; lia) ltac:(cbn [length] in *; lia)). rewrite IH.
  unfold a, prefix_integral. cbn [firstn trapezoid]. ring.
Qed.
Lemma ctr_length x : forall s acc, length s = length x -> length (ctr acc x s) = (length x - 1)%nat.
Proof.
  induction x as [|x0 x IH]; intros s acc Hl; [reflexivity|]. destruct s as [|s0 s]; [discriminate|]. destruct x as [|x1 x]; [reflexivity|]. destruct s as [|s1 s]; [discriminate|].
  change (S (length (ctr (acc + (x1 - x0) * (s0 + s1) / 2) (x1 :: x) (s1 :: s))) = (length (x0 :: x1 :: x) - 1)%nat).
  rewrite IH; cbn [length] in *; lia.
Qed.
Lemma cumsum_ctr (g : nat -> R) x : forall k acc,
  cumsum (Fin acc) (map2 (fun i d => ndiv (nmul d (nadd (Fin (g i)) (Fin (g (i + 1)%nat)))) (Fin 2)) (seq (S k) (length x - 1)) (ndiff (map Fin x)))
  = map Fin (ctr acc x (map (fun i => g (S i)) (seq k (length x)))).
Proof.
  induction x as [|x0 x IH]; intros k acc; [reflexivity|]. destruct x as [|x1 x]; [reflexivity|]. cbn [length Nat.sub map ndiff seq map2 cumsum ctr].
  rewrite nadd_fin, nsub_fin, nmul_fin, ndiv_fin, nadd_fin by lra. cbn [map].
  replace (S k + 1)%nat with (S (S k)) by lia. apply (f_equal2 cons); [auto|]. specialize (IH (S k) (acc + (x1 - x0) * (g (S k) + g (S (S k))) / 2)).
  cbn [length map seq Nat.sub] in IH. rewrite Nat.sub_0_r in IH. exact IH.
Qed.
Lemma nth_map_seq' {A} (g : nat -> A) n i d : (i < n)%nat -> nth i (map g (seq 0 n)) d = g i.
Proof. intros H. rewrite (nth_indep _ d (g 0%nat)) by (rewrite map_length, seq_length; lia). rewrite map_nth, seq_nth by lia. reflexivity. Qed.
(** the samples shifted by one, the last one repeated *)
Lemma shift_eq (y : list R) : (1 <= length y)%nat -> map (fun i => nth (Nat.min (S i) (length y - 1)) y 0) (seq 0 (length y)) = tl y ++ (last y 0 :: nil).
Proof.
  intros H. destruct y as [|y0 y]; [cbn in H; lia|]. cbn [tl]. clear H.
  apply (nth_ext _ _ 0 0); [rewrite map_length, seq_length, app_length; cbn [length]; lia|]. intros i Hi. rewrite map_length, seq_length in Hi. rewrite nth_map_seq' by auto. cbn [length] in *.
  replace (S (length y) - 1)%nat with (length y) by lia. destruct (Nat.lt_ge_cases i (length y)) as [L|L].
  - rewrite app_nth1 by auto. rewrite Nat.min_l by lia. reflexivity.
  - assert (i = length y) by lia. subst i. rewrite app_nth2 by lia. rewrite Nat.sub_diag. cbn [nth]. rewrite Nat.min_r by lia.
    destruct y as [|a y] using rev_ind; [reflexivity|]. rewrite app_length. cbn [length]. change (y0 :: y ++ (a :: nil)) with ((y0 :: y) ++ (a :: nil)). rewrite last_last.
    replace (length y + 1)%nat with (S (length y)) by lia. rewrite app_nth2 by lia. rewrite Nat.sub_diag. reflexivity.
Qed.
Lemma cumtrapz_fin y x : (2 <= length y)%nat -> length y = length x ->
  exists c, cumtrapz (map Fin y) (map Fin x) = Ok (map Fin c) /\ length c = length y /\
  forall i, (i < length y)%nat -> nth i c 0 = prefix_integral x (tl y ++ (last y 0 :: nil)) i.
Proof.
  intros H2 Hl. exists (0 :: ctr 0 x (tl y ++ (last y 0 :: nil))).
  assert (LS : length (tl y ++ (last y 0 :: nil)) = length x) by (rewrite app_length; destruct y; cbn [tl length] in *; lia).
  split; [|split].
  - unfold cumtrapz. rewrite !map_length. rewrite (proj2 (Nat.leb_gt _ _)) by lia. rewrite (proj2 (Nat.eqb_eq _ _)) by lia. cbn [negb map].
    apply (f_equal Ok), (f_equal2 cons); [auto|]. rewrite <- shift_eq by lia.
    rewrite Hl. pose proof (cumsum_ctr (fun i => nth (Nat.min i (length x - 1)) y 0) x 0 0) as G. rewrite <- G. f_equal.
    apply map2_ext. intros i d.
    assert (E : forall j, nth (Nat.min j (length x - 1)) (map Fin y) NaN = Fin (nth (Nat.min j (length x - 1)) y 0)).
    { intros j. rewrite (nth_indep _ NaN (Fin 0)) by (rewrite map_length; lia). apply map_nth. }
    rewrite !E. reflexivity.
  - cbn [length]. rewrite ctr_length by auto. lia.
  - intros i Hi. rewrite ctr_nth by (auto; lia). ring.
Qed.
Lemma cumtrapz_constant k x : (2 <= length x)%nat -> exists c, cumtrapz (map Fin (repeat k (length x))) (map Fin x) = Ok (map Fin c) /\ length c = length x /\
  forall i, (i < length x)%nat -> nth i c 0 = prefix_integral x (repeat k (length x)) i.
Proof.
  intros H. destruct (cumtrapz_fin (repeat k (length x)) x) as (c & E & L & N); rewrite ?repeat_length in *; auto. exists c. split; auto. split; auto. intros i Hi. rewrite N by auto. f_equal.
  destruct (length x) as [|n]; [lia|]. cbn [repeat tl]. assert (E2 : last (k :: repeat k n) 0 = k).
  { clear. induction n; [reflexivity|]. exact IHn. }
  rewrite E2. clear. induction n; [reflexivity|]. cbn [repeat app]. f_equal. exact IHn.
Qed.
Lemma cumtrapz_wrong y x : (3 <= length y)%nat -> length y = length x -> increasing x -> nth 0 y 0 <> nth 2 y 0 ->
  exists c, cumtrapz (map Fin y) (map Fin x) = Ok (map Fin c) /\ nth 1 c 0 <> prefix_integral x y 1.
Proof.
  intros H3 Hl Hx Hne. destruct (cumtrapz_fin y x) as (c & E & L & N); try lia. exists c. split; auto. rewrite N by lia.
  destruct y as [|y0 [|y1 [|y2 y]]]; cbn [length] in H3; try lia. destruct x as [|x0 [|x1 [|x2 x]]]; cbn [length] in Hl; try lia. unfold prefix_integral. cbn [tl app firstn trapezoid nth] in *.
  destruct Hx as [Hx _]. intros G. apply Hne. assert (G2 : (x1 - x0) * (y2 - y0) = 0) by lra. apply Rmult_integral in G2. lra.
Qed.
Lemma cumtrapz_single y x : length y = 1%nat -> cumtrapz (map Fin y) (map Fin x) = Err TypeError.
Proof. intros H. unfold cumtrapz. rewrite map_length, H. reflexivity. Qed.

Lemma set_last_nth l v i : (i < length l)%nat -> nth i (set_last (Fin v) (map Fin l)) NaN = Fin (if Nat.eqb i (length l - 1) then v else nth i l 0).
Proof.
  revert i; induction l as [|a l IH]; intros i Hi; [cbn in Hi; lia|]. destruct l as [|b l]; [destruct i; [reflexivity|cbn in Hi; lia]|].
  change (set_last (Fin v) (map Fin (a :: b :: l))) with (Fin a :: set_last (Fin v) (map Fin (b :: l))). destruct i as [|i]; [reflexivity|]. cbn [nth]. rewrite IH by (cbn [length] in *; lia).
  cbn [length]. replace (S (S (length l)) - 1)%nat with (S (length l)) by lia. cbn [Nat.eqb Nat.sub]. rewrite Nat.sub_0_r. reflexivity.
Qed.
Lemma set_last_length v l : length (set_last v l) = length l.
Proof. induction l as [|a l IH]; [reflexivity|]. destruct l as [|b l]; [reflexivity|]. change (S (length (set_last v (b :: l))) = S (length (b :: l))). rewrite IH. reflexivity. Qed.
Lemma set_last_fin l v : set_last (Fin v) (map Fin l) = map Fin (map (fun i => if Nat.eqb i (length l - 1) then v else nth i l 0) (seq 0 (length l))).
Proof.
  apply (nth_ext _ _ NaN NaN); [rewrite set_last_length, !map_length, seq_length; auto|]. rewrite set_last_length, map_length. intros i Hi. rewrite set_last_nth by auto.
  rewrite map_map, nth_map_seq' by auto. reflexivity.
Qed.

(** ** the tabulated cdf *)
Definition cdf_table (x p : list R) : list R :=
  map (fun i => if Nat.eqb i (length x - 1) then 1 else prefix_integral x (tl p ++ (last p 0 :: nil)) i) (seq 0 (length x)).
Lemma cdfgrid_fin p x : (2 <= length p)%nat -> length p = length x ->
  exists g, cumtrapz (map Fin p) (map Fin x) = Ok g /\ set_last (Fin 1) g = map Fin (cdf_table x p).
Proof.
  intros H2 Hl. destruct (cumtrapz_fin p x H2 Hl) as (c & E & L & N). exists (map Fin c). split; auto. rewrite set_last_fin. apply (f_equal (map Fin)). unfold cdf_table. rewrite L, Hl.
  apply map_ext_in. intros i Hi. apply in_seq in Hi. destruct (Nat.eqb_spec i (length x - 1)); auto. apply N. lia.
Qed.
Lemma cdf_table_length x p : length (cdf_table x p) = length x.
Proof. unfold cdf_table. rewrite map_length, seq_length. reflexivity. Qed.
Lemma cdf_table_nth x p i : (i < length x)%nat -> nth i (cdf_table x p) 0 = if Nat.eqb i (length x - 1) then 1 else prefix_integral x (tl p ++ (last p 0 :: nil)) i.
Proof. intros. unfold cdf_table. apply nth_map_seq'; auto. Qed.
Lemma uniform_increasing h x : uniform_grid h x -> increasing x.
Proof. intros (Hh & H). apply (increasing_of_nth _ 0). intros i Hi. specialize (H i Hi). lra. Qed.
Lemma shift_nth (p : list R) i : (S i < length p)%nat -> nth i (tl p ++ (last p 0 :: nil)) 0 = nth (S i) p 0.
Proof. intros H. destruct p as [|p0 p]; [cbn in H; lia|]. cbn [tl nth length] in *. rewrite app_nth1 by lia. reflexivity. Qed.
Lemma shift_prefix h x p i : uniform_grid h x -> length p = length x -> (S i < length x)%nat ->
  prefix_integral x (tl p ++ (last p 0 :: nil)) i = prefix_integral x p (S i) - prefix_integral x p 1.
Proof.
  intros U Hl. assert (LS : length (tl p ++ (last p 0 :: nil)) = length p \/ p = []) by (destruct p; [auto|left; cbn [tl length]; rewrite app_length; cbn [length]; lia]).
  induction i as [|i IH]; intros Hi; [rewrite prefix_0; ring|]. destruct LS as [LS|LS]; [|rewrite LS in Hl; cbn in Hl; lia]. rewrite prefix_S by lia. rewrite IH by lia. rewrite (prefix_S x p (S i)) by lia.
  rewrite !shift_nth by lia. destruct U as [_ U]. rewrite !U by lia. ring.
Qed.
Lemma prefix_mono x p i j : increasing x -> length p = length x -> (forall y, In y p -> 0 <= y) -> (i <= j)%nat -> (j < length x)%nat -> prefix_integral x p i <= prefix_integral x p j.
Proof.
  intros Hx Hl Hp Hij Hj. induction Hij as [|j Hij IH]; [lra|]. rewrite prefix_S by lia. specialize (IH ltac:(lia)).
  assert (0 <= nth j p 0) by (apply Hp, nth_In; lia). assert (0 <= nth (S j) p 0) by (apply Hp, nth_In; lia). pose proof (increasing_nth x j 0 Hx Hj). nra.
Qed.
Lemma nondecreasing_of_nth l : (forall i, (S i < length l)%nat -> nth i l 0 <= nth (S i) l 0) -> nondecreasing l.
Proof.
  induction l as [|a l IH]; intros H; [exact I|]. destruct l as [|b l]; [exact I|]. split; [apply (H 0%nat); cbn; lia|]. apply IH. intros i Hi. apply (H (S i)). cbn [length] in *. lia.
Qed.
Lemma cdf_table_mono h x p : uniform_grid h x -> (2 <= length x)%nat -> length p = length x -> (forall y, In y p -> 0 <= y) -> trapezoid x p = 1 ->
  nondecreasing (cdf_table x p) /\ nth 0 (cdf_table x p) 0 = 0 /\ nth (length x - 1) (cdf_table x p) 0 = 1.
Proof.
  intros U H2 Hl Hp Hone. pose proof (uniform_increasing h x U) as Hx.
  assert (P1 : forall i, (S i < length x)%nat -> prefix_integral x (tl p ++ (last p 0 :: nil)) i = prefix_integral x p (S i) - prefix_integral x p 1) by (intros; eapply shift_prefix; eauto).
  split; [|split].
  - apply nondecreasing_of_nth. rewrite cdf_table_length. intros i Hi. rewrite !cdf_table_nth by lia. rewrite (proj2 (Nat.eqb_neq i _)) by lia. rewrite P1 by lia.
    destruct (Nat.eqb_spec (S i) (length x - 1)) as [E|E].
    + pose proof (prefix_mono x p (S i) (length x - 1) Hx Hl Hp ltac:(lia) ltac:(lia)) as G. rewrite prefix_all, Hone in G by lia.
      pose proof (prefix_mono x p 0 1 Hx Hl Hp ltac:(lia) ltac:(lia)) as G2. rewrite prefix_0 in G2. lra.
    + rewrite P1 by lia. pose proof (prefix_mono x p (S i) (S (S i)) Hx Hl Hp ltac:(lia) ltac:(lia)). lra.
  - rewrite cdf_table_nth by lia. rewrite (proj2 (Nat.eqb_neq 0 _)) by lia. apply prefix_0.
  - rewrite cdf_table_nth by lia. rewrite Nat.eqb_refl. reflexivity.
Qed.

(** ** interpolation with repeated abscissae *)
Lemma ninterp_in_nd x xs : forall ys, nondecreasing xs -> hd 0 xs <= x -> ninterp_in (Fin x) (map Fin xs) (map Fin ys) = Fin (rinterp_in x xs ys).
Proof.
  induction xs as [|x0 xs IH]; intros ys Hx Hh; [destruct ys; reflexivity|]. destruct xs as [|x1 xs]; [destruct ys as [|y0 [|y1 ys]]; reflexivity|].
  destruct ys as [|y0 [|y1 ys]]; [reflexivity|reflexivity|]. destruct Hx as [L Hx]. cbn [hd] in Hh.
  change (ninterp_in (Fin x) (map Fin (x0 :: x1 :: xs)) (map Fin (y0 :: y1 :: ys))) with
    (if nlt (Fin x) (Fin x1) then nadd (Fin y0) (nmul (ndiv (nsub (Fin x) (Fin x0)) (nsub (Fin x1) (Fin x0))) (nsub (Fin y1) (Fin y0))) else ninterp_in (Fin x) (map Fin (x1 :: xs)) (map Fin (y1 :: ys))).
  rewrite rinterp_in_unfold. cbn [nlt]. rcase.
  - rewrite !nsub_fin, ndiv_fin, nmul_fin, nadd_fin by lra. reflexivity.
  - apply (IH (y1 :: ys)); auto.
Qed.
Lemma ninterp_nd x xs ys : nondecreasing xs -> ninterp (Fin x) (map Fin xs) (map Fin ys) = Fin (rinterp x xs ys).
Proof.
  intros H. unfold ninterp. cbn [nisnan]. destruct xs as [|x0 xs], ys as [|y0 ys]; try reflexivity. cbn [map nlt]. unfold rinterp. rcase; [reflexivity|].
  apply (ninterp_in_nd x (x0 :: xs) (y0 :: ys)); auto.
Qed.
Lemma rinterp_in_between_nd x lo hi xs : forall ys, ys <> [] -> hd 0 xs <= x -> (forall y, In y ys -> lo <= y <= hi) -> nondecreasing xs -> lo <= rinterp_in x xs ys <= hi.
Proof.
  induction xs as [|x0 xs IH]; intros ys Hn Hh Hy Hx; (destruct ys as [|y0 ys]; [congruence|]); [apply Hy; left; auto|].
  destruct xs as [|x1 xs]; [destruct ys; apply Hy; left; auto|]. destruct ys as [|y1 ys]; [apply Hy; left; auto|]. destruct Hx as [L Hx]. cbn [hd] in Hh. rewrite rinterp_in_unfold. rcase.
  - apply lin_between; try lra; apply Hy; cbn; auto.
  - apply IH; auto; [discriminate|intros; apply Hy; right; auto].
Qed.
Lemma rinterp_between_nd x lo hi xs ys : xs <> [] -> ys <> [] -> nondecreasing xs -> (forall y, In y ys -> lo <= y <= hi) -> lo <= rinterp x xs ys <= hi.
Proof.
  intros Hn Hm Hx Hy. unfold rinterp. destruct xs as [|x0 xs]; [congruence|]. destruct ys as [|y0 ys]; [congruence|]. rcase; [apply Hy; left; auto|].
  apply rinterp_in_between_nd; auto.
Qed.
Lemma nondecreasing_hd a l y : nondecreasing (a :: l) -> In y (a :: l) -> a <= y.
Proof. revert a; induction l as [|b l IH]; intros a H [->|Hin]; try lra; [destruct Hin|]. destruct H as [L H]. specialize (IH b H Hin). lra. Qed.
Lemma rinterp_in_ge_hd x xs : forall y0 ys, increasing xs -> hd 0 xs <= x -> nondecreasing (y0 :: ys) -> y0 <= rinterp_in x xs (y0 :: ys).
Proof.
  induction xs as [|x0 xs IH]; intros y0 ys Hx Hh Hy; [cbn; lra|]. destruct xs as [|x1 xs]; [destruct ys; cbn; lra|]. destruct ys as [|y1 ys]; [cbn; lra|].
  destruct Hx as [L Hx]. destruct Hy as [LY Hy]. cbn [hd] in Hh. rewrite rinterp_in_unfold. rcase.
  - assert (0 <= (x - x0) / (x1 - x0)) by (apply Rdiv_le_0_compat; lra). nra.
  - specialize (IH y1 ys Hx ltac:(cbn [hd]; lra) Hy). lra.
Qed.
Lemma rinterp_in_mono_nd x x' xs : forall ys, increasing xs -> hd 0 xs <= x -> x <= x' -> nondecreasing ys -> rinterp_in x xs ys <= rinterp_in x' xs ys.
Proof.
  induction xs as [|x0 xs IH]; intros ys Hx Hh Hxx Hy; [destruct ys; cbn; lra|]. destruct xs as [|x1 xs]; [destruct ys as [|y0 [|y1 ys]]; cbn; lra|]. destruct ys as [|y0 [|y1 ys]]; [cbn; lra|cbn; lra|].
  destruct Hx as [L Hx]. pose proof Hy as [LY Hy']. cbn [hd] in Hh. rewrite !rinterp_in_unfold. destruct (Rltb x x1) eqn:E1; [apply Rltb_true in E1|apply Rltb_false in E1].
  - destruct (Rltb x' x1) eqn:E2; [apply Rltb_true in E2|apply Rltb_false in E2].
    + assert ((x - x0) / (x1 - x0) <= (x' - x0) / (x1 - x0)). { unfold Rdiv. apply Rmult_le_compat_r; [left; apply Rinv_0_lt_compat|]; lra. } nra.
    + apply Rle_trans with y1; [apply (lin_between x x0 x1 y0 y1 y0 y1); lra|]. apply (rinterp_in_ge_hd x' (x1 :: xs)); auto.
  - rewrite Rltb_f by lra. apply (IH (y1 :: ys)); auto.
Qed.
Lemma rinterp_mono_nd x x' xs ys : increasing xs -> nondecreasing ys -> x <= x' -> rinterp x xs ys <= rinterp x' xs ys.
Proof.
  intros Hx Hy Hxx. unfold rinterp. destruct xs as [|x0 xs], ys as [|y0 ys]; try lra. destruct (Rltb x x0) eqn:E1; [apply Rltb_true in E1|apply Rltb_false in E1].
  - rcase; [lra|]. apply (rinterp_in_ge_hd x' (x0 :: xs)); auto.
  - rewrite Rltb_f by lra. apply rinterp_in_mono_nd; auto.
Qed.
