(** Facts about piecewise-linear interpolation ([rinterp], the model of np.interp / jnp.interp). *)
From Verif Require Export NumFacts ArrFacts Spec Calc.
Open Scope R_scope.

Lemma ninterp_in_fin x xs : forall ys, increasing xs ->
  ninterp_in (Fin x) (map Fin xs) (map Fin ys) = Fin (rinterp_in x xs ys).
Proof.
  induction xs as [|x0 [|x1 xs] IH]; intros [|y0 [|y1 ys]] Hinc; try reflexivity.
  change (ninterp_in (Fin x) (map Fin (x0 :: x1 :: xs)) (map Fin (y0 :: y1 :: ys)))
    with (if Rltb x x1 then (Fin y0 + (Fin x - Fin x0) / (Fin x1 - Fin x0) * (Fin y1 - Fin y0))%num
          else ninterp_in (Fin x) (map Fin (x1 :: xs)) (map Fin (y1 :: ys))).
  change (rinterp_in x (x0 :: x1 :: xs) (y0 :: y1 :: ys))
    with (if Rltb x x1 then y0 + (x - x0) / (x1 - x0) * (y1 - y0) else rinterp_in x (x1 :: xs) (y1 :: ys)).
  destruct Hinc as [Hlt Hinc]. destruct (Rltb x x1).
  - rewrite !nsub_fin, ndiv_fin by lra. reflexivity.
  - apply IH. exact Hinc.
Qed.
Lemma ninterp_fin x xs ys : increasing xs ->
  ninterp (Fin x) (map Fin xs) (map Fin ys) = Fin (rinterp x xs ys).
Proof.
  intros H. unfold ninterp, rinterp. cbn [nisnan]. destruct xs as [|x0 xs], ys as [|y0 ys]; try reflexivity.
  cbn [map nlt]. destruct (Rltb x x0); [reflexivity|].
  change (Fin x0 :: map Fin xs) with (map Fin (x0 :: xs)). change (Fin y0 :: map Fin ys) with (map Fin (y0 :: ys)).
  apply ninterp_in_fin; auto.
Qed.

Lemma rinterp_in_unfold x x0 x1 xs y0 y1 ys :
  rinterp_in x (x0 :: x1 :: xs) (y0 :: y1 :: ys)
  = if Rltb x x1 then y0 + (x - x0) / (x1 - x0) * (y1 - y0) else rinterp_in x (x1 :: xs) (y1 :: ys).
Proof. reflexivity. Qed.
Lemma rinterp_in_left x0 xs y0 ys : increasing (x0 :: xs) -> rinterp_in x0 (x0 :: xs) (y0 :: ys) = y0.
Proof.
  intros H. destruct xs as [|x1 xs], ys as [|y1 ys]; try reflexivity.
  rewrite rinterp_in_unfold. destruct H as [H _]. rewrite Rltb_t by auto. field. lra.
Qed.
Lemma increasing_tl a l : increasing (a :: l) -> increasing l.
Proof. destruct l; cbn; tauto. Qed.
Lemma increasing_hd_le a l x : increasing (a :: l) -> In x (a :: l) -> a <= x.
Proof.
  revert a; induction l as [|b l IH]; intros a H [->|Hin]; try lra; [destruct Hin|].
  destruct H as [H1 H2]. specialize (IH b H2 Hin). lra.
Qed.
Lemma last_in {A} (a : A) l d : In (last (a :: l) d) (a :: l).
Proof.
  revert a; induction l as [|b l IH]; intros a; [left; reflexivity|].
  change (last (a :: b :: l) d) with (last (b :: l) d). right. apply IH.
Qed.
Lemma increasing_le_last a l x d : increasing (a :: l) -> In x (a :: l) -> x <= last (a :: l) d.
Proof.
  revert a x; induction l as [|b l IH]; intros a x H Hin.
  - destruct Hin as [->|[]]. cbn. lra.
  - change (last (a :: b :: l) d) with (last (b :: l) d). destruct H as [H1 H2].
    destruct Hin as [->|Hin]; [|apply IH; auto].
    specialize (IH b b H2 (or_introl eq_refl)). lra.
Qed.

(** clamping *)
Lemma rinterp_in_right x0 xs : forall y0 ys x, length ys = length xs -> increasing (x0 :: xs) ->
  last (x0 :: xs) 0 <= x -> rinterp_in x (x0 :: xs) (y0 :: ys) = last (y0 :: ys) 0.
Proof.
  revert x0; induction xs as [|x1 xs IH]; intros x0 y0 [|y1 ys] x Hl Hinc Hx; try discriminate; [reflexivity|].
  rewrite rinterp_in_unfold. change (last (x0 :: x1 :: xs) 0) with (last (x1 :: xs) 0) in Hx.
  change (last (y0 :: y1 :: ys) 0) with (last (y1 :: ys) 0).
  destruct Hinc as [H1 H2]. pose proof (increasing_le_last x1 xs x1 0 H2 (or_introl eq_refl)).
  rewrite Rltb_f by lra. apply IH; auto.
Qed.
Lemma rinterp_right x xs ys : xs <> [] -> length ys = length xs -> increasing xs ->
  last xs 0 <= x -> rinterp x xs ys = last ys 0.
Proof.
  intros Hne Hl Hinc Hx. destruct xs as [|x0 xs]; [congruence|]. destruct ys as [|y0 ys]; [discriminate|].
  unfold rinterp. pose proof (increasing_le_last x0 xs x0 0 Hinc (or_introl eq_refl)).
  rewrite Rltb_f by lra. apply rinterp_in_right; auto.
Qed.
Lemma rinterp_left x x0 xs y0 ys : increasing (x0 :: xs) -> x <= x0 -> rinterp x (x0 :: xs) (y0 :: ys) = y0.
Proof.
  intros Hi Hx. unfold rinterp. rcase; [reflexivity|]. assert (x = x0) by lra. subst. apply rinterp_in_left; auto.
Qed.

(** nodes *)
Lemma rinterp_in_node xs : forall ys i, length ys = length xs -> increasing xs -> (i < length xs)%nat ->
  rinterp_in (nth i xs 0) xs ys = nth i ys 0.
Proof.
  induction xs as [|x0 xs IH]; intros ys i Hl Hinc Hi; [cbn in Hi; lia|].
  destruct ys as [|y0 ys]; [discriminate|].
  destruct i as [|i]; [apply rinterp_in_left; auto|].
  destruct xs as [|x1 xs]; [cbn in Hi; lia|]. destruct ys as [|y1 ys]; [discriminate|].
  rewrite rinterp_in_unfold. change (nth (S i) (x0 :: x1 :: xs) 0) with (nth i (x1 :: xs) 0).
  change (nth (S i) (y0 :: y1 :: ys) 0) with (nth i (y1 :: ys) 0).
  destruct Hinc as [H1 H2].
  assert (x1 <= nth i (x1 :: xs) 0) by (apply increasing_hd_le with xs; auto; apply nth_In; cbn in *; lia).
  rewrite Rltb_f by lra. apply IH; auto. cbn in *; lia.
Qed.
Lemma rinterp_node xs ys i : length ys = length xs -> increasing xs -> (i < length xs)%nat ->
  rinterp (nth i xs 0) xs ys = nth i ys 0.
Proof.
  intros Hl Hinc Hi. destruct xs as [|x0 xs]; [cbn in Hi; lia|]. destruct ys as [|y0 ys]; [discriminate|].
  unfold rinterp. rewrite Rltb_f; [apply rinterp_in_node; auto|].
  apply increasing_hd_le with xs; auto. apply nth_In; auto.
Qed.

(** values between bounds *)
Lemma lin_between x x0 x1 y0 y1 lo hi : x0 < x1 -> x0 <= x <= x1 -> lo <= y0 <= hi -> lo <= y1 <= hi ->
  lo <= y0 + (x - x0) / (x1 - x0) * (y1 - y0) <= hi.
Proof.
  intros H Hx H0 H1. set (t := (x - x0) / (x1 - x0)).
  assert (0 <= t <= 1).
  { unfold t. split; [apply Rdiv_le_0_compat; lra|]. apply Rmult_le_reg_r with (x1 - x0); [lra|].
    unfold Rdiv. rewrite Rmult_assoc, Rinv_l by lra. lra. }
  nra.
Qed.
Lemma rinterp_in_between x lo hi x0 xs : forall y0 ys, increasing (x0 :: xs) -> x0 <= x ->
  (forall y, In y (y0 :: ys) -> lo <= y <= hi) -> lo <= rinterp_in x (x0 :: xs) (y0 :: ys) <= hi.
Proof.
  revert x0; induction xs as [|x1 xs IH]; intros x0 y0 ys Hinc Hx Hy; [destruct ys; apply Hy; left; auto|].
  destruct ys as [|y1 ys]; [apply Hy; left; auto|].
  rewrite rinterp_in_unfold. destruct Hinc as [H1 H2]. rcase.
  - apply lin_between; [auto|lra|apply Hy; left; auto|apply Hy; right; left; auto].
  - apply IH; auto. intros y Hin. apply Hy. right; auto.
Qed.
Lemma rinterp_between x lo hi xs ys : xs <> [] -> ys <> [] -> increasing xs ->
  (forall y, In y ys -> lo <= y <= hi) -> lo <= rinterp x xs ys <= hi.
Proof.
  intros Hn Hm Hinc Hy. destruct xs as [|x0 xs]; [congruence|]. destruct ys as [|y0 ys]; [congruence|].
  unfold rinterp. rcase; [apply Hy; left; auto|]. apply rinterp_in_between; auto.
Qed.
Lemma rinterp_nonneg x xs ys : increasing xs -> (forall y, In y ys -> 0 <= y) -> 0 <= rinterp x xs ys.
Proof.
  intros Hinc Hy. destruct xs as [|x0 xs]; [cbn; lra|]. destruct ys as [|y0 ys]; [cbn; lra|].
  assert (Hb : exists hi, forall y, In y (y0 :: ys) -> y <= hi).
  { clear. generalize (y0 :: ys). intros l. induction l as [|a l [h Hh]]; [exists 0; intros ? []|].
    exists (Rmax a h). intros y [->|Hin]; [apply Rmax_l|]. apply Rle_trans with h; auto. apply Rmax_r. }
  destruct Hb as [hi Hb].
  apply (rinterp_between x 0 hi); try discriminate; auto.
Qed.

(** integral of the interpolant over its table = trapezoid sum *)
Lemma is_RInt_linear a b y0 y1 : a < b -> is_RInt (fun x => y0 + (x - a) / (b - a) * (y1 - y0)) a b ((b - a) * (y0 + y1) / 2).
Proof.
  intros H. apply (FTC_eq (fun x => y0 * x + (x - a) ^ 2 / 2 / (b - a) * (y1 - y0))); [lra| | |field; lra].
  - intros x _. auto_derive; auto. field. lra.
  - intros x _. apply ex_derive_cont. auto_derive. auto.
Qed.
Lemma rinterp_in_int x0 xs : forall y0 ys, length ys = length xs -> increasing (x0 :: xs) ->
  is_RInt (fun x => rinterp_in x (x0 :: xs) (y0 :: ys)) x0 (last (x0 :: xs) 0) (trapezoid (x0 :: xs) (y0 :: ys)).
Proof.
  revert x0; induction xs as [|x1 xs IH]; intros x0 y0 [|y1 ys] Hl Hinc; try discriminate.
  - cbn [last trapezoid]. apply (is_RInt_val _ _ _ ((x0 - x0) * y0)); [|ring].
    apply (is_RInt_constR x0 x0 y0).
  - change (last (x0 :: x1 :: xs) 0) with (last (x1 :: xs) 0).
    change (trapezoid (x0 :: x1 :: xs) (y0 :: y1 :: ys)) with ((x1 - x0) * (y0 + y1) / 2 + trapezoid (x1 :: xs) (y1 :: ys)).
    destruct Hinc as [H1 H2].
    apply (is_RInt_ChaslesR _ x0 x1 _).
    + apply (is_RInt_ext_open (fun x => y0 + (x - x0) / (x1 - x0) * (y1 - y0))); [lra| |apply is_RInt_linear; auto].
      intros x Hx. rewrite rinterp_in_unfold, Rltb_t by lra. reflexivity.
    + apply (is_RInt_ext_open (fun x => rinterp_in x (x1 :: xs) (y1 :: ys))).
      * apply (increasing_le_last x1 xs x1 0 H2); left; auto.
      * intros x Hx. rewrite rinterp_in_unfold, Rltb_f by lra. reflexivity.
      * apply IH; auto.
Qed.
Lemma rinterp_int xs ys : xs <> [] -> length ys = length xs -> increasing xs ->
  is_RInt (fun x => rinterp x xs ys) (hd 0 xs) (last xs 0) (trapezoid xs ys).
Proof.
  intros Hn Hl Hinc. destruct xs as [|x0 xs]; [congruence|]. destruct ys as [|y0 ys]; [discriminate|].
  cbn [hd]. apply (is_RInt_ext_open (fun x => rinterp_in x (x0 :: xs) (y0 :: ys))).
  - apply (increasing_le_last x0 xs x0 0 Hinc); left; auto.
  - intros x Hx. unfold rinterp. rewrite Rltb_f by lra. reflexivity.
  - apply rinterp_in_int; auto.
Qed.

(** monotone tables give monotone interpolants, inverted by swapping the tables *)
Lemma rinterp_in_mono x0 xs : forall y0 ys, length ys = length xs -> increasing (x0 :: xs) -> increasing (y0 :: ys) ->
  forall x x', x0 <= x -> x < x' -> x' <= last (x0 :: xs) 0 ->
  y0 <= rinterp_in x (x0 :: xs) (y0 :: ys) < rinterp_in x' (x0 :: xs) (y0 :: ys).
Proof.
  revert x0; induction xs as [|x1 xs IH]; intros x0 y0 [|y1 ys] Hl Hx Hy x x' L1 L2 L3; try discriminate.
  - cbn in L3. lra.
  - rewrite !rinterp_in_unfold. destruct Hx as [Hx1 Hx2], Hy as [Hy1 Hy2].
    change (last (x0 :: x1 :: xs) 0) with (last (x1 :: xs) 0) in L3.
    assert (E : forall t, x0 <= t -> y0 <= y0 + (t - x0) / (x1 - x0) * (y1 - y0)).
    { intros t Ht. assert (0 <= (t - x0) / (x1 - x0)) by (apply Rdiv_le_0_compat; lra). nra. }
    assert (E2 : forall t, x0 <= t < x1 -> y0 + (t - x0) / (x1 - x0) * (y1 - y0) < y1).
    { intros t Ht. replace y1 with (y0 + 1 * (y1 - y0)) at 2 by ring. apply Rplus_lt_compat_l, Rmult_lt_compat_r; [lra|].
      apply Rmult_lt_reg_r with (x1 - x0); [lra|]. unfold Rdiv. rewrite Rmult_assoc, Rinv_l by lra. lra. }
    rcase; rcase; try lra.
    + split; [apply E; lra|]. apply Rplus_lt_compat_l, Rmult_lt_compat_r; [lra|]. unfold Rdiv.
      apply Rmult_lt_compat_r; [apply Rinv_0_lt_compat; lra|lra].
    + split; [apply E; lra|]. apply Rlt_le_trans with y1; [apply E2; lra|].
      destruct (Rle_lt_or_eq_dec x1 x') as [Hlt|Heq]; [lra| |].
      * apply (IH x1 y1 ys) with (x := x1) (x' := x') in Hlt; auto; try lra.
      * subst x'. rewrite rinterp_in_left; auto. lra.
    + assert (Hle : x1 <= x) by lra. pose proof (IH x1 y1 ys ltac:(auto) Hx2 Hy2 x x' Hle L2 L3). lra.
Qed.
Lemma rinterp_mono xs ys x x' : xs <> [] -> length ys = length xs -> increasing xs -> increasing ys ->
  hd 0 xs <= x -> x < x' -> x' <= last xs 0 -> rinterp x xs ys < rinterp x' xs ys.
Proof.
  intros Hn Hl Hx Hy L1 L2 L3. destruct xs as [|x0 xs]; [congruence|]. destruct ys as [|y0 ys]; [discriminate|].
  cbn [hd] in L1. unfold rinterp. rewrite !Rltb_f by lra.
  apply (rinterp_in_mono x0 xs y0 ys ltac:(auto) Hx Hy x x'); auto.
Qed.
Lemma rinterp_in_ge x0 xs y0 ys x : length ys = length xs -> increasing (x0 :: xs) -> increasing (y0 :: ys) ->
  x0 <= x -> x <= last (x0 :: xs) 0 -> y0 <= rinterp_in x (x0 :: xs) (y0 :: ys) <= last (y0 :: ys) 0.
Proof.
  intros Hl Hx Hy L1 L2. apply rinterp_in_between; auto. intros y Hin. split.
  - apply increasing_hd_le with ys; auto.
  - apply increasing_le_last; auto.
Qed.
Lemma rinterp_in_inv x0 xs : forall y0 ys, length ys = length xs -> increasing (x0 :: xs) -> increasing (y0 :: ys) ->
  forall x, x0 <= x <= last (x0 :: xs) 0 ->
  rinterp_in (rinterp_in x (x0 :: xs) (y0 :: ys)) (y0 :: ys) (x0 :: xs) = x.
Proof.
  revert x0; induction xs as [|x1 xs IH]; intros x0 y0 [|y1 ys] Hl Hx Hy x L; try discriminate.
  - cbn in *. lra.
  - rewrite (rinterp_in_unfold x). rewrite rinterp_in_unfold. destruct Hx as [Hx1 Hx2], Hy as [Hy1 Hy2].
    change (last (x0 :: x1 :: xs) 0) with (last (x1 :: xs) 0) in L.
    destruct (Rlt_le_dec x x1) as [Hlt|Hge].
    + rewrite (Rltb_t x x1) by auto. rewrite Rltb_t.
      * field. lra.
      * replace y1 with (y0 + 1 * (y1 - y0)) at 2 by ring. apply Rplus_lt_compat_l, Rmult_lt_compat_r; [lra|].
        apply Rmult_lt_reg_r with (x1 - x0); [lra|]. unfold Rdiv. rewrite Rmult_assoc, Rinv_l by lra. lra.
    + rewrite (Rltb_f x x1) by auto.
      pose proof (rinterp_in_ge x1 xs y1 ys x ltac:(auto) Hx2 Hy2 Hge ltac:(lra)).
      rewrite Rltb_f by lra. apply IH; auto; lra.
Qed.
Lemma rinterp_inv xs ys x : xs <> [] -> length ys = length xs -> increasing xs -> increasing ys ->
  hd 0 xs <= x <= last xs 0 -> rinterp (rinterp x xs ys) ys xs = x.
Proof.
  intros Hn Hl Hx Hy L. destruct xs as [|x0 xs]; [congruence|]. destruct ys as [|y0 ys]; [discriminate|].
  cbn [hd] in L. unfold rinterp at 2. rewrite Rltb_f by lra.
  pose proof (rinterp_in_ge x0 xs y0 ys x ltac:(auto) Hx Hy ltac:(lra) ltac:(lra)).
  unfold rinterp. rewrite Rltb_f by lra. apply rinterp_in_inv; auto.
Qed.

(** continuity everywhere *)
Lemma continuous_Rmin c x : continuous (fun t => Rmin t c) x.
Proof.
  apply (continuous_ext (fun t => (t + c - Rabs (t - c)) / 2)).
  - intros t. unfold Rmin, Rabs. destruct (Rle_dec t c), (Rcase_abs (t - c)); lra.
  - apply cont_mult; [|apply cont_const]. apply cont_minus; [apply cont_plus; [apply cont_id|apply cont_const]|].
    apply (cont_comp (fun t => t - c) Rabs); [apply cont_minus; [apply cont_id|apply cont_const]|].
    apply continuous_Rabs.
Qed.
Lemma continuous_Rmax c x : continuous (fun t => Rmax t c) x.
Proof.
  apply (continuous_ext (fun t => (t + c + Rabs (t - c)) / 2)).
  - intros t. unfold Rmax, Rabs. destruct (Rle_dec t c), (Rcase_abs (t - c)); lra.
  - apply cont_mult; [|apply cont_const]. apply cont_plus; [apply cont_plus; [apply cont_id|apply cont_const]|].
    apply (cont_comp (fun t => t - c) Rabs); [apply cont_minus; [apply cont_id|apply cont_const]|].
    apply continuous_Rabs.
Qed.
Lemma rinterp_in_cont x0 xs : forall y0 ys, increasing (x0 :: xs) ->
  forall x, continuous (fun t => rinterp_in t (x0 :: xs) (y0 :: ys)) x.
Proof.
  revert x0; induction xs as [|x1 xs IH]; intros x0 y0 ys Hinc x.
  - apply (continuous_ext (fun _ => y0)); [intros t; destruct ys; reflexivity|]. apply cont_const.
  - destruct ys as [|y1 ys].
    { apply (continuous_ext (fun _ => y0)); [reflexivity|]. apply cont_const. }
    pose proof Hinc as [H1 H2].
    apply (continuous_ext (fun t => (y0 + (Rmin t x1 - x0) / (x1 - x0) * (y1 - y0)) + (rinterp_in (Rmax t x1) (x1 :: xs) (y1 :: ys) - y1))).
    + intros t. rewrite rinterp_in_unfold. unfold Rmin, Rmax. destruct (Rle_dec t x1) as [Ht|Ht].
      * rewrite rinterp_in_left by auto. rcase; [req; ring|]. assert (t = x1) by lra. subst t.
        rewrite rinterp_in_left by auto. req; field. lra.
      * rewrite Rltb_f by lra. req; field. lra.
    + apply cont_plus.
      * apply cont_plus; [apply cont_const|]. apply cont_mult; [|apply cont_const].
        apply cont_mult; [|apply cont_const]. apply cont_minus; [apply continuous_Rmin|apply cont_const].
      * apply cont_minus; [|apply cont_const].
        apply (cont_comp (fun t => Rmax t x1) (fun u => rinterp_in u (x1 :: xs) (y1 :: ys))); [apply continuous_Rmax|].
        apply IH; auto.
Qed.
Lemma rinterp_cont xs ys x : increasing xs -> continuous (fun t => rinterp t xs ys) x.
Proof.
  intros Hinc. destruct xs as [|x0 xs]; [apply (continuous_ext (fun _ => 0)); [reflexivity|apply cont_const]|].
  destruct ys as [|y0 ys]; [apply (continuous_ext (fun _ => 0)); [reflexivity|apply cont_const]|].
  apply (continuous_ext (fun t => rinterp_in (Rmax t x0) (x0 :: xs) (y0 :: ys))).
  - intros t. unfold rinterp, Rmax. destruct (Rle_dec t x0) as [Ht|Ht].
    + rewrite rinterp_in_left by auto. rcase; [reflexivity|]. assert (t = x0) by lra. subst. rewrite rinterp_in_left; auto.
    + rewrite Rltb_f by lra. reflexivity.
  - apply (cont_comp (fun t => Rmax t x0) (fun u => rinterp_in u (x0 :: xs) (y0 :: ys))); [apply continuous_Rmax|].
    apply rinterp_in_cont; auto.
Qed.
