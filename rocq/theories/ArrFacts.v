(** Facts about array operations. *)
From Coq Require Export Permutation.
From Verif Require Export NumFacts Arr Spec.

Lemma nsum_fin l : nsum (map Fin l) = Fin (Rlsum l).
Proof. induction l as [|x l IH]; [reflexivity|]. cbn. rewrite IH. reflexivity. Qed.

Lemma nsum_app l m : nsum (l ++ m) = nadd (nsum l) (nsum m).
Proof.
  induction l as [|x l IH]; cbn [nsum app]; [symmetry; apply nadd_0_l|]. rewrite IH. apply nadd_assoc.
Qed.

Lemma nsum_perm l m : Permutation l m -> nsum l = nsum m.
Proof.
  induction 1; cbn [nsum]; auto.
  - congruence.
  - rewrite !nadd_assoc. f_equal. apply nadd_comm.
  - congruence.
Qed.

Lemma ntrapz_terms_fin ys xs :
  nsum (ntrapz_terms (map Fin ys) (map Fin xs)) = Fin (2 * trapezoid xs ys).
Proof.
  revert ys. induction xs as [|x0 xs IH]; intros ys.
  - destruct ys as [|y0 [|y1 ys]]; cbn [trapezoid ntrapz_terms map nsum]; apply (f_equal Fin); ring.
  - destruct ys as [|y0 ys]; [destruct xs; cbn [trapezoid ntrapz_terms map nsum]; apply (f_equal Fin); ring|].
    destruct xs as [|x1 xs].
    + destruct ys; cbn [trapezoid ntrapz_terms map nsum]; apply (f_equal Fin); ring.
    + destruct ys as [|y1 ys]; [cbn [trapezoid ntrapz_terms map nsum]; apply (f_equal Fin); ring|].
      specialize (IH (y1 :: ys)).
      change (ntrapz_terms (map Fin (y0 :: y1 :: ys)) (map Fin (x0 :: x1 :: xs))) with
        (nmul (nsub (Fin x1) (Fin x0)) (nadd (Fin y1) (Fin y0)) ::
         ntrapz_terms (map Fin (y1 :: ys)) (map Fin (x1 :: xs))).
      change (trapezoid (x0 :: x1 :: xs) (y0 :: y1 :: ys)) with
        ((x1 - x0) * (y0 + y1) / 2 + trapezoid (x1 :: xs) (y1 :: ys)).
      cbn [nsum]. rewrite IH. rewrite nsub_fin, nadd_fin, nmul_fin, nadd_fin. apply (f_equal Fin). field.
Qed.

Lemma ntrapz_fin ys xs : ntrapz (map Fin ys) (map Fin xs) = Fin (trapezoid xs ys).
Proof. unfold ntrapz. rewrite ntrapz_terms_fin. cbn. f_equal. lra. Qed.

Lemma trapezoid_scal xs ys k : trapezoid xs (map (fun y => k * y) ys) = k * trapezoid xs ys.
Proof.
  revert ys. induction xs as [|x0 xs IH]; intros ys; [destruct ys; cbn; ring|].
  destruct xs as [|x1 xs]; [destruct ys as [|y0 [|y1 ys]]; cbn; ring|].
  destruct ys as [|y0 [|y1 ys]]; [cbn; ring|cbn; ring|].
  specialize (IH (y1 :: ys)). cbn [map] in IH.
  cbn [map]. 
  change (trapezoid (x0 :: x1 :: xs) (k * y0 :: k * y1 :: map (fun y => k * y) ys)) with
    ((x1 - x0) * (k * y0 + k * y1) / 2 + trapezoid (x1 :: xs) (k * y1 :: map (fun y => k * y) ys)).
  rewrite IH.
  change (trapezoid (x0 :: x1 :: xs) (y0 :: y1 :: ys)) with
        ((x1 - x0) * (y0 + y1) / 2 + trapezoid (x1 :: xs) (y1 :: ys)).
  field.
Qed.

Lemma trapezoid_div xs ys k : trapezoid xs (map (fun y => y / k) ys) = trapezoid xs ys / k.
Proof.
  replace (map (fun y => y / k) ys) with (map (fun y => / k * y) ys).
  - rewrite trapezoid_scal. unfold Rdiv; ring.
  - apply map_ext; intros; unfold Rdiv; ring.
Qed.

Lemma trapezoid_nonneg xs ys : increasing xs -> (forall y, In y ys -> 0 <= y) -> 0 <= trapezoid xs ys.
Proof.
  revert ys. induction xs as [|x0 xs IH]; intros ys Hx Hy; [destruct ys; cbn; lra|].
  destruct xs as [|x1 xs]; [destruct ys as [|y0 [|y1 ys]]; cbn; lra|].
  destruct ys as [|y0 [|y1 ys]]; [cbn; lra|cbn; lra|].
  change (trapezoid (x0 :: x1 :: xs) (y0 :: y1 :: ys)) with
        ((x1 - x0) * (y0 + y1) / 2 + trapezoid (x1 :: xs) (y1 :: ys)).
  destruct Hx as [Hx01 Hx].
  assert (0 <= trapezoid (x1 :: xs) (y1 :: ys)) by (apply IH; auto; intros; apply Hy; right; auto).
  assert (0 <= y0) by (apply Hy; cbn; auto).
  assert (0 <= y1) by (apply Hy; cbn; auto).
  nra.
Qed.

(** strictly positive as soon as the grid has two points and all ordinates but possibly the
    first are positive *)
Lemma trapezoid_pos xs ys : increasing xs -> (2 <= length xs)%nat -> length ys = length xs ->
  (forall y, In y ys -> 0 <= y) -> (forall y, In y (tl ys) -> 0 < y) -> 0 < trapezoid xs ys.
Proof.
  intros Hx Hl Hle Hy Hy'.
  destruct xs as [|x0 [|x1 xs]]; cbn in Hl; try lia.
  destruct ys as [|y0 [|y1 ys]]; cbn in Hle; try lia.
  change (trapezoid (x0 :: x1 :: xs) (y0 :: y1 :: ys)) with
        ((x1 - x0) * (y0 + y1) / 2 + trapezoid (x1 :: xs) (y1 :: ys)).
  destruct Hx as [Hx01 Hx].
  assert (0 <= trapezoid (x1 :: xs) (y1 :: ys)) by (apply trapezoid_nonneg; auto; intros; apply Hy; right; auto).
  assert (0 <= y0) by (apply Hy; cbn; auto).
  assert (0 < y1) by (apply Hy'; cbn; auto).
  nra.
Qed.

Lemma increasing_nth l i d : increasing l -> (S i < length l)%nat -> nth i l d < nth (S i) l d.
Proof.
  revert i. induction l as [|a l IH]; intros i H Hi; [cbn in Hi; lia|].
  destruct l as [|b l]; [cbn in Hi; lia|]. destruct H as [Hab H].
  destruct i; [exact Hab|]. apply (IH i H). cbn in *; lia.
Qed.

Lemma increasing_of_nth l d : (forall i, (S i < length l)%nat -> nth i l d < nth (S i) l d) -> increasing l.
Proof.
  induction l as [|a l IH]; intros H; [exact I|].
  destruct l as [|b l]; [exact I|]. split.
  - apply (H O). cbn; lia.
  - apply IH. intros i Hi. apply (H (S i)). cbn in *; lia.
Qed.

Lemma increasing_lt l i j d : increasing l -> (i < j)%nat -> (j < length l)%nat -> nth i l d < nth j l d.
Proof.
  intros H Hij Hj. induction j as [|j IH]; [lia|].
  destruct (Nat.eq_dec i j) as [->|Hne].
  - apply increasing_nth; auto.
  - apply Rlt_trans with (nth j l d); [apply IH; lia | apply increasing_nth; auto].
Qed.

Lemma rlinspace_length a b n : length (rlinspace a b n) = n.
Proof. unfold rlinspace. rewrite map_length, seq_length. auto. Qed.

Lemma rlinspace_nth a b n i : (i < n)%nat -> nth i (rlinspace a b n) 0 = a + INR i * ((b - a) / INR (n - 1)).
Proof.
  intros Hi. unfold rlinspace.
  rewrite (nth_indep _ 0 ((fun i => a + INR i * ((b - a) / INR (n - 1))) O)).
  - rewrite (map_nth (fun i => a + INR i * ((b - a) / INR (n - 1)))). rewrite seq_nth by auto. reflexivity.
  - rewrite map_length, seq_length; auto.
Qed.

Lemma rlinspace_increasing a b n : a < b -> increasing (rlinspace a b n).
Proof.
  intros Hab. apply (increasing_of_nth _ 0). intros i Hi. rewrite rlinspace_length in Hi.
  rewrite !rlinspace_nth by lia.
  assert (0 < (b - a) / INR (n - 1)).
  { apply Rdiv_lt_0_compat; [lra|]. apply lt_0_INR. lia. }
  rewrite S_INR. nra.
Qed.

Lemma rlinspace_range a b n x : a <= b -> In x (rlinspace a b n) -> a <= x <= b.
Proof.
  intros Hab Hx. unfold rlinspace in Hx. apply in_map_iff in Hx. destruct Hx as (i & <- & Hi).
  apply in_seq in Hi.
  destruct (Nat.eq_dec n 1) as [->|Hn].
  - assert (i = 0%nat) by lia. subst. cbn. lra.
  - assert (0 < INR (n - 1)) by (apply lt_0_INR; lia).
    assert (INR i <= INR (n - 1)) by (apply le_INR; lia).
    assert (0 <= INR i) by apply pos_INR.
    assert (0 <= (b - a) / INR (n - 1)) by (apply Rdiv_le_0_compat; lra).
    replace b with (a + INR (n - 1) * ((b - a) / INR (n - 1))) at 3 by (field; lra).
    nra.
Qed.

Lemma nlinspace_fin a b n : (2 <= n)%nat -> nlinspace (Fin a) (Fin b) n = map Fin (rlinspace a b n).
Proof.
  intros Hn. unfold nlinspace, rlinspace. rewrite map_map. apply map_ext. intros i.
  cbn [nsub nadd nneg]. rewrite ndiv_fin; [reflexivity|]. apply not_0_INR. lia.
Qed.

Lemma map2_length {A B C} (f : A -> B -> C) xs ys : length (map2 f xs ys) = Nat.min (length xs) (length ys).
Proof. revert ys; induction xs; destruct ys; cbn; auto. Qed.
Lemma map2_map {A B C A' B'} (f : A -> B -> C) (g : A' -> A) (h : B' -> B) xs ys :
  map2 f (map g xs) (map h ys) = map2 (fun x y => f (g x) (h y)) xs ys.
Proof. revert ys; induction xs; destruct ys; cbn; auto. rewrite IHxs; auto. Qed.
Lemma map_map2 {A B C D} (g : C -> D) (f : A -> B -> C) xs ys :
  map g (map2 f xs ys) = map2 (fun x y => g (f x y)) xs ys.
Proof. revert ys; induction xs; destruct ys; cbn; auto. rewrite IHxs; auto. Qed.
Lemma map2_ext {A B C} (f g : A -> B -> C) xs ys : (forall x y, f x y = g x y) -> map2 f xs ys = map2 g xs ys.
Proof. intros H; revert ys; induction xs; destruct ys; cbn; auto. rewrite H, IHxs; auto. Qed.
Lemma map2_same {A B C} (f : A -> B -> C) (g : A -> B) xs :
  map2 f xs (map g xs) = map (fun x => f x (g x)) xs.
Proof. induction xs; cbn; auto. rewrite IHxs; auto. Qed.

Lemma Rlsum_app l m : Rlsum (l ++ m) = Rlsum l + Rlsum m.
Proof. induction l; cbn; [ring|]. rewrite IHl; ring. Qed.
Lemma Rlsum_scal k l : Rlsum (map (fun x => k * x) l) = k * Rlsum l.
Proof. induction l; cbn; [ring|]. rewrite IHl; ring. Qed.
Lemma Rlsum_nonneg l : (forall x, In x l -> 0 <= x) -> 0 <= Rlsum l.
Proof.
  induction l; cbn; intros H; [lra|]. assert (0 <= a) by auto. assert (0 <= Rlsum l) by auto. lra.
Qed.
