(** The natural cubic spline, from its linear system. *)
From Verif Require Export PNatural SpecNatural.
Open Scope R_scope.

Lemma nsum_fold l : nsum l = fold_right nadd (Fin 0) l.
Proof. induction l; cbn; congruence. Qed.
Lemma Rlsum_app' l m : Rlsum (l ++ m) = Rlsum l + Rlsum m.
Proof. induction l; cbn; [ring|]. rewrite IHl. ring. Qed.
Lemma Rlsum_all0 l : (forall x, In x l -> x = 0) -> Rlsum l = 0.
Proof. induction l as [|a l IH]; intros H; cbn; auto. rewrite (H a), IH; auto; [ring|intros; apply H; right; auto|left; auto]. Qed.

(** a row with entries only at i-1, i, i+1 *)
Lemma row3 f n i : (1 <= i)%nat -> (i + 1 < n)%nat -> (forall j, (j < n)%nat -> j <> (i - 1)%nat -> j <> i -> j <> (i + 1)%nat -> f j = 0) ->
  Rlsum (map f (seq 0 n)) = f (i - 1)%nat + f i + f (i + 1)%nat.
Proof.
  intros H1 H2 H. replace n with ((i - 1) + (3 + (n - i - 2)))%nat at 1 by lia. rewrite !seq_app, !map_app, !Rlsum_app'.
  rewrite (Rlsum_all0 (map f (seq 0 (i - 1)))), (Rlsum_all0 (map f (seq (0 + (i - 1) + 3) _))).
  - cbn [seq map Rlsum]. replace (S (0 + (i - 1))) with i by lia. replace (S i) with (i + 1)%nat by lia. replace (0 + (i - 1))%nat with (i - 1)%nat by lia. ring.
  - intros x Hx. apply in_map_iff in Hx as (j & <- & Hj). apply in_seq in Hj. apply H; lia.
  - intros x Hx. apply in_map_iff in Hx as (j & <- & Hj). apply in_seq in Hj. apply H; lia.
Qed.
Lemma row_first f n : (1 <= n)%nat -> (forall j, (j < n)%nat -> j <> 0%nat -> f j = 0) -> Rlsum (map f (seq 0 n)) = f 0%nat.
Proof.
  intros H1 H. replace n with (1 + (n - 1))%nat at 1 by lia. rewrite seq_app, map_app, Rlsum_app'. cbn [seq map Rlsum].
  rewrite Rlsum_all0; [ring|]. intros x Hx. apply in_map_iff in Hx as (j & <- & Hj). apply in_seq in Hj. apply H; lia.
Qed.
Lemma row_last f n : (2 <= n)%nat -> (forall j, (j < n)%nat -> j <> (n - 2)%nat -> j <> (n - 1)%nat -> f j = 0) ->
  Rlsum (map f (seq 0 n)) = f (n - 2)%nat + f (n - 1)%nat.
Proof.
  intros H1 H. replace n with ((n - 2) + 2)%nat at 1 by lia. rewrite seq_app, map_app, Rlsum_app'.
  rewrite Rlsum_all0; [cbn [seq map Rlsum]; replace (S (0 + (n - 2))) with (n - 1)%nat by lia; replace (0 + (n - 2))%nat with (n - 2)%nat by lia; ring|].
  intros x Hx. apply in_map_iff in Hx as (j & <- & Hj). apply in_seq in Hj. apply H; lia.
Qed.

Lemma rdiff_nth l i : (S i < length l)%nat -> nth i (rdiff l) 0 = nth (S i) l 0 - nth i l 0.
Proof. revert i. induction l as [|a [|b l] IH]; intros i H; cbn in H; try lia. destruct i as [|i]; [reflexivity|]. cbn [rdiff]. cbn [nth]. apply IH. cbn. lia. Qed.
Lemma rdiff_length l : length (rdiff l) = (length l - 1)%nat.
Proof. induction l as [|a [|b l] IH]; auto. cbn [rdiff length] in *. rewrite IH. lia. Qed.
Lemma nth_fin l i : (i < length l)%nat -> nth i (map Fin l) NaN = Fin (nth i l 0).
Proof. intros H. rewrite (nth_indep _ NaN (Fin 0)) by (rewrite map_length; auto). apply map_nth. Qed.
Lemma nth_ndiff l i : (S i < length l)%nat -> nth i (ndiff (map Fin l)) NaN = Fin (nth (S i) l 0 - nth i l 0).
Proof. intros H. rewrite ndiff_fin, nth_fin by (rewrite rdiff_length; lia). rewrite rdiff_nth; auto. Qed.

Lemma all_fin l : (forall z, In z l -> exists r, z = Fin r) -> exists cs, l = map Fin cs.
Proof.
  induction l as [|a l IH]; intros H; [exists []; auto|]. destruct IH as [cs ->]; [intros; apply H; right; auto|]. destruct (H a) as [r ->]; [left; auto|]. exists (r :: cs). auto.
Qed.

Section Natural.
Variables xs ys : list R.
Let n := length xs.
Hypothesis HX : increasing xs.
Hypothesis HY : length ys = n.
Hypothesis HN : (4 <= n)%nat.
Definition hh i := nth (S i) xs 0 - nth i xs 0.
Definition pp i := nth (S i) ys 0 - nth i ys 0.
Lemma hh_pos i : (S i < n)%nat -> 0 < hh i.
Proof. intros H. unfold hh. pose proof (increasing_nth xs i 0 HX H). lra. Qed.
Lemma h_nth i : (S i < n)%nat -> nth i (ndiff (map Fin xs)) NaN = Fin (hh i).
Proof. apply nth_ndiff. Qed.
Lemma p_nth i : (S i < n)%nat -> nth i (ndiff (map Fin ys)) NaN = Fin (pp i).
Proof. intros. apply nth_ndiff. rewrite HY. auto. Qed.
Let rhs i := 3 * (pp i / hh i - pp (i - 1) / hh (i - 1)).

Definition A := nat_matrix (ndiff (map Fin xs)) n.
Definition S_ := nat_rhs (ndiff (map Fin xs)) (ndiff (map Fin ys)) n.
Definition AR (i j : nat) : R :=
  if Nat.eqb i j then (if Nat.eqb i 0 then 1 else if Nat.eqb i (n - 1) then 1 else 2 * (hh (i - 1) + hh i))
  else if Nat.eqb j (i + 1) then (if Nat.eqb i 0 then 0 else hh i)
  else if Nat.eqb i (j + 1) then (if Nat.eqb i (n - 1) then -1 else hh j) else 0.
Lemma A_real i j : (i < n)%nat -> (j < n)%nat -> A i j = Fin (AR i j).
Proof.
  intros Hi Hj. unfold A, nat_matrix, AR.
  destruct (Nat.eqb_spec i j) as [->|N1]; [destruct (Nat.eqb_spec j 0); auto; destruct (Nat.eqb_spec j (n - 1)); auto; rewrite !h_nth by lia; reflexivity|].
  destruct (Nat.eqb_spec j (i + 1)) as [->|N2]; [destruct (Nat.eqb_spec i 0); auto; apply h_nth; lia|].
  destruct (Nat.eqb_spec i (j + 1)) as [->|N3]; auto. destruct (Nat.eqb_spec (j + 1) (n - 1)); auto. apply h_nth. lia.
Qed.
Definition SR i := if Nat.eqb i 0 then 0 else if Nat.eqb i (n - 1) then 0 else rhs i.
Lemma S_real i : (i < n)%nat -> S_ i = Fin (SR i).
Proof.
  intros Hi. unfold S_, nat_rhs, SR, rhs. destruct (Nat.eqb_spec i 0); auto. destruct (Nat.eqb_spec i (n - 1)); auto.
  rewrite !h_nth, !p_nth by lia. pose proof (hh_pos i ltac:(lia)). pose proof (hh_pos (i - 1) ltac:(lia)).
  rewrite !ndiv_fin by lra. rewrite nsub_fin, nmul_fin. reflexivity.
Qed.

(** the three kinds of equations *)
Definition eqs (c : nat -> R) : Prop :=
  c 0%nat = 0 /\ c (n - 1)%nat = c (n - 2)%nat /\
  forall i, (1 <= i)%nat -> (i + 1 < n)%nat -> hh (i - 1) * c (i - 1)%nat + 2 * (hh (i - 1) + hh i) * c i + hh i * c (i + 1)%nat = rhs i.
Lemma AR_sum c i : (i < n)%nat -> Rlsum (map (fun j => AR i j * c j) (seq 0 n)) =
  if Nat.eqb i 0 then c 0%nat else if Nat.eqb i (n - 1) then - c (n - 2)%nat + c (n - 1)%nat
  else hh (i - 1) * c (i - 1)%nat + 2 * (hh (i - 1) + hh i) * c i + hh i * c (i + 1)%nat.
Proof.
  intros Hi. destruct (Nat.eqb_spec i 0) as [->|N0]; [|destruct (Nat.eqb_spec i (n - 1)) as [->|N1]].
  - rewrite row_first; [unfold AR; cbn; ring|lia|]. intros j Hj Nj. unfold AR. destruct (Nat.eqb_spec 0 j); [lia|].
    destruct (Nat.eqb_spec j (0 + 1)); [cbn; ring|]. destruct (Nat.eqb_spec 0 (j + 1)); [lia|]. ring.
  - rewrite row_last; [|lia|].
    + unfold AR. rewrite (Nat.eqb_refl (n - 1)). destruct (Nat.eqb_spec (n - 1) (n - 2)); [lia|]. destruct (Nat.eqb_spec (n - 2) (n - 1 + 1)); [lia|].
      destruct (Nat.eqb_spec (n - 1) (n - 2 + 1)); [|lia]. destruct (Nat.eqb_spec (n - 1) 0); [lia|]. ring.
    + intros j Hj N2 N3. unfold AR. destruct (Nat.eqb_spec (n - 1) j); [lia|]. destruct (Nat.eqb_spec j (n - 1 + 1)); [lia|]. destruct (Nat.eqb_spec (n - 1) (j + 1)); [lia|]. ring.
  - rewrite (row3 _ n i); [|lia|lia|].
    + unfold AR. rewrite (Nat.eqb_refl i). destruct (Nat.eqb_spec i (i - 1)); [lia|]. destruct (Nat.eqb_spec (i - 1) (i + 1)); [lia|].
      destruct (Nat.eqb_spec i (i - 1 + 1)); [|lia]. destruct (Nat.eqb_spec i (i + 1)); [lia|]. rewrite (Nat.eqb_refl (i + 1)).
      destruct (Nat.eqb_spec i 0); [lia|]. destruct (Nat.eqb_spec i (n - 1)); [lia|]. ring.
    + intros j Hj M1 M2 M3. unfold AR. destruct (Nat.eqb_spec i j); [lia|]. destruct (Nat.eqb_spec j (i + 1)); [lia|]. destruct (Nat.eqb_spec i (j + 1)); [lia|]. ring.
Qed.
Lemma row_value cs i : length cs = n -> (i < n)%nat ->
  fold_right nadd (Fin 0) (map (fun j => nmul (A i j) (nth j (map Fin cs) NaN)) (seq 0 n)) = Fin (Rlsum (map (fun j => AR i j * nth j cs 0) (seq 0 n))).
Proof.
  intros HL Hi. rewrite <- nsum_fold, <- nsum_fin. f_equal. rewrite map_map. apply map_ext_in. intros j Hj. apply in_seq in Hj.
  rewrite A_real, nth_fin by lia. reflexivity.
Qed.
Lemma solves_eqs cs : solves n A S_ (map Fin cs) <-> length cs = n /\ eqs (fun j => nth j cs 0).
Proof.
  unfold solves. rewrite map_length. split; intros [HL H]; split; auto.
  - assert (E : forall i, (i < n)%nat -> Rlsum (map (fun j => AR i j * nth j cs 0) (seq 0 n)) = SR i).
    { intros i Hi. specialize (H i Hi). rewrite row_value, S_real in H by auto. injection H as ->. reflexivity. }
    unfold eqs. unfold SR in E. split; [|split].
    + specialize (E 0%nat ltac:(lia)). rewrite AR_sum in E by lia. exact E.
    + specialize (E (n - 1)%nat ltac:(lia)). rewrite AR_sum in E by lia. rewrite Nat.eqb_refl in E. destruct (Nat.eqb_spec (n - 1) 0); [lia|]. lra.
    + intros i H1 H2. specialize (E i ltac:(lia)). rewrite AR_sum in E by lia. destruct (Nat.eqb_spec i 0); [lia|]. destruct (Nat.eqb_spec i (n - 1)); [lia|]. exact E.
  - intros i Hi. rewrite row_value, S_real by auto. apply (f_equal Fin). destruct H as (H0 & H1 & H2).
    pose proof (AR_sum (fun j => nth j cs 0) i Hi) as E. cbv beta in E. rewrite E. unfold SR.
    destruct (Nat.eqb_spec i 0); auto. destruct (Nat.eqb_spec i (n - 1)); [lra|]. apply H2; lia.
Qed.
Lemma solves_finite c : solves n A S_ c -> exists cs, c = map Fin cs.
Proof.
  intros [HL H]. specialize (H 0%nat ltac:(lia)). rewrite <- nsum_fold, S_real in H by lia.
  assert (F : forall v l, nsum l = Fin v -> forall z, In z l -> exists r, z = Fin r).
  { intros v l. revert v. induction l as [|a l IH]; intros v E z Hz; [destruct Hz|]. cbn in E. destruct a as [a| | |], (nsum l) as [b| | |] eqn:EN; try discriminate.
    destruct Hz as [<-|Hz]; eauto. }
  apply all_fin. intros z Hz. apply (In_nth _ _ NaN) in Hz as (j & Hj & <-). rewrite HL in Hj.
  destruct (F _ _ H (nmul (A 0 j) (nth j c NaN))) as [r Hr]; [apply (in_map (fun j => nmul (A 0 j) (nth j c NaN))); apply in_seq; lia|].
  rewrite A_real in Hr by lia. destruct (nth j c NaN) as [q| | |]; eauto; cbn in Hr; unfold sinf in Hr; repeat destruct (Rltb _ _); discriminate.
Qed.

(** existence and uniqueness by shooting from the left *)
Definition step (g : R) (a b : R) (i : nat) : R := (g * rhs i - hh (i - 1) * a - 2 * (hh (i - 1) + hh i) * b) / hh i.
(** c_0 = 0, c_1 = t, then the recurrence with right-hand side scaled by g *)
Fixpoint seqc (g t : R) (j : nat) : R :=
  match j with O => 0 | S j' => match j' with O => t | S j'' => step g (seqc g t j'') (seqc g t j') j' end end.
Lemma seqc_SS g t j : seqc g t (S (S j)) = step g (seqc g t j) (seqc g t (S j)) (S j).
Proof. reflexivity. Qed.
Lemma seqc_affine t j : seqc 1 t j = t * seqc 0 1 j + seqc 1 0 j.
Proof.
  cut (seqc 1 t j = t * seqc 0 1 j + seqc 1 0 j /\ seqc 1 t (S j) = t * seqc 0 1 (S j) + seqc 1 0 (S j)); [tauto|].
  induction j as [|j [I1 I2]]; [cbn; split; ring|]. split; auto. rewrite !seqc_SS, I1, I2. unfold step, Rdiv. ring.
Qed.
Lemma alpha_grow j : (j + 1 < n)%nat -> Rabs (seqc 0 1 j) < Rabs (seqc 0 1 (S j)).
Proof.
  induction j as [|j IH]; intros Hj; [cbn; rewrite Rabs_R0, Rabs_R1; lra|]. specialize (IH ltac:(lia)). rewrite seqc_SS. unfold step.
  set (a := seqc 0 1 j) in *. set (b := seqc 0 1 (S j)) in *. replace (S j - 1)%nat with j by lia.
  pose proof (hh_pos j ltac:(lia)) as P1. pose proof (hh_pos (S j) ltac:(lia)) as P2.
  set (h := hh j) in *. set (k := hh (S j)) in *. rewrite Rmult_0_l.
  replace ((0 - h * a - 2 * (h + k) * b) / k) with (- ((h * a + 2 * (h + k) * b) / k)) by (field; lra). rewrite Rabs_Ropp.
  unfold Rdiv. rewrite Rabs_mult, (Rabs_right (/ k)) by (apply Rle_ge; left; apply Rinv_0_lt_compat; auto).
  apply (Rmult_lt_reg_r k); auto. rewrite Rmult_assoc, Rinv_l, Rmult_1_r by lra.
  assert (T : Rabs (2 * (h + k) * b) <= Rabs (h * a + 2 * (h + k) * b) + Rabs (h * a)).
  { replace (2 * (h + k) * b) with ((h * a + 2 * (h + k) * b) + - (h * a)) at 1 by ring. eapply Rle_trans; [apply Rabs_triang|]. rewrite Rabs_Ropp. lra. }
  rewrite !Rabs_mult in T. rewrite (Rabs_right 2), (Rabs_right (h + k)), (Rabs_right h) in T by lra.
  pose proof (Rabs_pos a). pose proof (Rabs_pos b). nra.
Qed.
Lemma eqs_seqc c : eqs c -> forall j, (j < n)%nat -> c j = seqc 1 (c 1%nat) j.
Proof.
  intros (H0 & H1 & H2). intros j Hj. cut (((j < n)%nat -> c j = seqc 1 (c 1%nat) j) /\ ((S j < n)%nat -> c (S j) = seqc 1 (c 1%nat) (S j))); [tauto|].
  clear Hj. induction j as [|j [I1 I2]]; [split; intros; auto|]. split; auto. intros Hj. rewrite seqc_SS, <- I1, <- I2 by lia.
  specialize (H2 (S j) ltac:(lia) ltac:(lia)). unfold step. replace (S j + 1)%nat with (S (S j)) in H2 by lia. replace (S j - 1)%nat with j in * by lia.
  pose proof (hh_pos (S j) ltac:(lia)) as P2. rewrite Rmult_1_l, <- H2. field. lra.
Qed.
Lemma alpha_end : seqc 0 1 (n - 1) <> seqc 0 1 (n - 2).
Proof. pose proof (alpha_grow (n - 2) ltac:(lia)) as H. replace (S (n - 2)) with (n - 1)%nat in H by lia. intros E. rewrite E in H. lra. Qed.
Lemma seqc_eqs t : seqc 1 t (n - 1) = seqc 1 t (n - 2) -> eqs (seqc 1 t).
Proof.
  intros HE. split; [reflexivity|]. split; auto. intros i H1 H2. destruct i as [|j]; [lia|]. replace (S j + 1)%nat with (S (S j)) by lia. replace (S j - 1)%nat with j by lia.
  rewrite seqc_SS. unfold step. replace (S j - 1)%nat with j by lia. pose proof (hh_pos (S j) ltac:(lia)). rewrite Rmult_1_l. field. lra.
Qed.
Lemma eqs_exists : exists c, eqs c.
Proof.
  pose proof alpha_end as NE. set (t := - (seqc 1 0 (n - 1) - seqc 1 0 (n - 2)) / (seqc 0 1 (n - 1) - seqc 0 1 (n - 2))).
  exists (seqc 1 t). apply seqc_eqs. rewrite (seqc_affine t (n - 1)), (seqc_affine t (n - 2)). unfold t. field. lra.
Qed.
Lemma eqs_unique c c' : eqs c -> eqs c' -> forall j, (j < n)%nat -> c j = c' j.
Proof.
  intros H H' j Hj. rewrite (eqs_seqc c), (eqs_seqc c') by auto. f_equal.
  pose proof H as (_ & E & _). pose proof H' as (_ & E' & _).
  rewrite (eqs_seqc c H (n - 1)), (eqs_seqc c H (n - 2)) in E by lia. rewrite (eqs_seqc c' H' (n - 1)), (eqs_seqc c' H' (n - 2)) in E' by lia.
  rewrite (seqc_affine _ (n - 1)), (seqc_affine _ (n - 2)) in E. rewrite (seqc_affine _ (n - 1)), (seqc_affine _ (n - 2)) in E'.
  pose proof alpha_end as NE. apply (Rmult_eq_reg_r (seqc 0 1 (n - 1) - seqc 0 1 (n - 2))); lra.
Qed.
Lemma system_solvable : exists c, solves n A S_ c /\ forall c', solves n A S_ c' -> c' = c.
Proof.
  destruct eqs_exists as [c Hc]. set (cs := map c (seq 0 n)).
  assert (EN : forall j, (j < n)%nat -> nth j cs 0 = c j).
  { intros j Hj. unfold cs. rewrite (nth_indep _ 0 (c 0%nat)) by (rewrite map_length, seq_length; auto). rewrite map_nth, seq_nth by auto. reflexivity. }
  assert (LC : length cs = n) by (unfold cs; rewrite map_length, seq_length; auto).
  assert (HE : eqs (fun j => nth j cs 0)).
  { destruct Hc as (H0 & H1 & H2). split; [rewrite EN by lia; auto|]. split; [rewrite !EN by lia; auto|]. intros i Hi Hi'. rewrite !EN by lia. auto. }
  exists (map Fin cs). split; [apply solves_eqs; auto|]. intros c' Hc'. destruct (solves_finite c' Hc') as [cs' ->]. apply solves_eqs in Hc' as [L' E'].
  f_equal. apply nth_ext with (d := 0) (d' := 0); [congruence|]. intros j Hj. apply (eqs_unique _ _ E' HE). lia.
Qed.

(** ** the pieces *)
Variable c : nat -> R.
Hypothesis HC : eqs c.
Definition bcoef i := pp i / hh i - (2 * c i + c (S i)) * hh i / 3.
Definition dcoef i := (c (S i) - c i) / (3 * hh i).
Definition Q0 i x := let t := x - nth i xs 0 in nth i ys 0 + bcoef i * t + c i * t ^ 2 + dcoef i * t ^ 3.
Definition Q1 i x := let t := x - nth i xs 0 in bcoef i + 2 * c i * t + 3 * dcoef i * t ^ 2.
Definition Q2 i x := let t := x - nth i xs 0 in 2 * c i + 6 * dcoef i * t.
Lemma Q0_derive i x : is_derive (Q0 i) x (Q1 i x).
Proof. unfold Q0, Q1. auto_derive; auto. ring. Qed.
Lemma Q1_derive i x : is_derive (Q1 i) x (Q2 i x).
Proof. unfold Q1, Q2. auto_derive; auto. ring. Qed.
Lemma Q2_cont i x : continuous (Q2 i) x.
Proof. apply ex_derive_cont. unfold Q2. auto_derive. auto. Qed.
Lemma hh_eq i : nth (S i) xs 0 - nth i xs 0 = hh i.
Proof. reflexivity. Qed.
Lemma Q0_right i : (S i < n)%nat -> Q0 i (nth (S i) xs 0) = nth (S i) ys 0.
Proof.
  intros H. unfold Q0. rewrite hh_eq. cbv zeta. unfold bcoef, dcoef, pp. pose proof (hh_pos i H). field. lra.
Qed.
Lemma Q0_left i : Q0 i (nth i xs 0) = nth i ys 0.
Proof. unfold Q0. cbv zeta. replace (nth i xs 0 - nth i xs 0) with 0 by ring. ring. Qed.
Lemma joined0 : joined xs Q0.
Proof. intros i H. rewrite Q0_right, Q0_left by (unfold n in *; lia). reflexivity. Qed.
Lemma joined1 : joined xs Q1.
Proof.
  intros i H. unfold Q1. rewrite hh_eq. cbv zeta. replace (nth (S i) xs 0 - nth (S i) xs 0) with 0 by ring. unfold bcoef, dcoef.
  destruct HC as (_ & _ & H2). specialize (H2 (S i) ltac:(lia) ltac:(unfold n; lia)). unfold rhs in H2. replace (S i - 1)%nat with i in H2 by lia. replace (S i + 1)%nat with (S (S i)) in H2 by lia.
  pose proof (hh_pos i ltac:(unfold n; lia)). pose proof (hh_pos (S i) ltac:(unfold n; lia)).
  assert (E : pp (S i) / hh (S i) = pp i / hh i + (hh i * c i + 2 * (hh i + hh (S i)) * c (S i) + hh (S i) * c (S (S i))) / 3) by lra.
  rewrite E. field. lra.
Qed.
Lemma joined2 : joined xs Q2.
Proof.
  intros i H. unfold Q2. rewrite hh_eq. cbv zeta. replace (nth (S i) xs 0 - nth (S i) xs 0) with 0 by ring. unfold dcoef.
  pose proof (hh_pos i ltac:(unfold n; lia)). pose proof (hh_pos (S i) ltac:(unfold n; lia)). field; lra.
Qed.

Lemma call_real cs x : length cs = n -> (forall j, nth j cs 0 = c j) -> nc_call (NCS (map Fin xs) (map Fin ys) (map Fin cs)) (Fin x) = Fin (pw xs Q0 x).
Proof.
  intros HL EC. unfold nc_call, pw. cbn [nc_x nc_y nc_c]. rewrite idx_model.
  destruct (idx_spec xs x HX ltac:(unfold n in *; lia)) as (L & _ & _). set (i := idx xs x) in *. replace (i + 1)%nat with (S i) by lia.
  assert (L' : (S i < n)%nat) by exact L. rewrite !(nth_fin xs), !(nth_fin ys), !(nth_fin cs), h_nth by (unfold n in *; lia). rewrite !EC.
  pose proof (hh_pos i L'). unfold npowi. repeat first [rewrite nsub_fin|rewrite nmul_fin|rewrite nadd_fin|rewrite ndiv_fin by lra].
  apply (f_equal Fin). unfold Q0, bcoef, dcoef, pp. cbv zeta. field. lra.
Qed.
End Natural.

(** C31: for every correct solver the spline exists, interpolates its data and is twice continuously differentiable; C32: ends. *)
Lemma natural_spec solve xs ys : correct_solver solve -> increasing xs -> (4 <= length xs)%nat -> length ys = length xs ->
  exists sp f f' f'', make_ncs solve (map Fin xs) (map Fin ys) None = Ok sp /\ (forall x, nc_call sp (Fin x) = Fin (f x)) /\
    (forall i, (i < length xs)%nat -> f (nth i xs 0) = nth i ys 0) /\ twice_continuously_differentiable f f' f'' /\
    f'' (nth 0 xs 0) = 0 /\ (forall x, nth (length xs - 2) xs 0 <= x -> f'' x = f'' (nth (length xs - 1) xs 0)) /\
    exists c, eqs xs ys c /\ f'' (nth (length xs - 1) xs 0) = 2 * c (length xs - 2)%nat.
Proof.
  intros HS HX HN HY. destruct (system_solvable xs ys HX HY HN) as (c & Hc & _).
  assert (HV : solves (length xs) (A xs) (S_ xs ys) (solve (length xs) (A xs) (S_ xs ys))) by (apply HS; apply system_solvable; auto).
  destruct (solves_finite xs ys HX HY HN _ HV) as [cs Ecs]. rewrite Ecs in HV. apply (solves_eqs xs ys HX HY HN) in HV as [HL HE].
  set (cf := fun j => nth j cs 0) in *.
  assert (L2 : (2 <= length xs)%nat) by lia.
  exists (NCS (map Fin xs) (map Fin ys) (map Fin cs)), (pw xs (Q0 xs ys cf)), (pw xs (Q1 xs ys cf)), (pw xs (Q2 xs cf)).
  split; [|split; [|split; [|split; [|split]]]].
  - unfold make_ncs. rewrite !map_length, HY, Nat.eqb_refl. cbn [negb]. destruct (Nat.ltb_spec 3 (length xs)); [|lia]. rewrite <- Ecs. reflexivity.
  - intros x. apply call_real; auto.
  - intros i Hi. rewrite pw_knot by (auto using joined0). destruct (Nat.min_spec i (length xs - 2)) as [[_ ->]|[P ->]]; [apply Q0_left|].
    destruct (Nat.eq_dec i (length xs - 2)) as [E|E]; [rewrite <- E; apply Q0_left|]. replace i with (S (length xs - 2)) by lia. apply Q0_right; auto. lia.
  - intros x. split; [|split].
    + apply (pw_derive xs HX L2 _ _ (joined0 xs ys HX HY HN cf) (joined1 xs ys HX HY HN cf HE) (Q0_derive xs ys cf)).
    + apply (pw_derive xs HX L2 _ _ (joined1 xs ys HX HY HN cf HE) (joined2 xs ys HX HY HN cf) (Q1_derive xs ys cf)).
    + apply (pw_cont xs HX L2 _ (joined2 xs ys HX HY HN cf) (Q2_cont xs cf)).
  - rewrite (pw_knot xs HX L2 _ 0) by (try lia; apply (joined2 xs ys); auto). cbn [Nat.min]. unfold Q2. cbv zeta. destruct HE as (E0 & _). unfold cf in *. rewrite E0. ring.
  - pose proof HE as (_ & E1 & _).
    assert (K : forall x, nth (length xs - 2) xs 0 <= x -> pw xs (Q2 xs cf) x = 2 * cf (length xs - 2)%nat).
    { intros x Hx. unfold pw. rewrite (idx_unique xs x (length xs - 2)) by (auto; lia). unfold Q2, dcoef. cbv zeta. replace (S (length xs - 2)) with (length xs - 1)%nat by lia. rewrite E1.
      unfold Rdiv. ring. }
    assert (PL : nth (length xs - 2) xs 0 <= nth (length xs - 1) xs 0) by (left; apply increasing_lt; auto; lia).
    split; [intros x Hx; rewrite !K; auto|]. exists cf. split; auto.
Qed.

(** C32 fails at the right end *)
Lemma right_end solve : correct_solver solve ->
  exists sp f f' f'', make_ncs solve (map Fin [0; 1; 2; 3]) (map Fin [0; 0; 1; 3]) None = Ok sp /\ (forall x, nc_call sp (Fin x) = Fin (f x)) /\
    twice_continuously_differentiable f f' f'' /\ f'' 3 = 18 / 19.
Proof.
  intros HS. destruct (natural_spec solve [0; 1; 2; 3] [0; 0; 1; 3] HS) as (sp & f & f' & f'' & H1 & H2 & _ & H4 & _ & _ & c & (E0 & E1 & E2) & E3); [cbn; lra|cbn; lia|reflexivity|].
  exists sp, f, f', f''. split; auto. split; auto. split; auto. change (nth (length [0; 1; 2; 3] - 1) [0; 1; 2; 3] 0) with 3 in E3. rewrite E3. clear E3.
  cbn [length Nat.sub] in *. pose proof (E2 1%nat ltac:(lia) ltac:(lia)) as A1. pose proof (E2 2%nat ltac:(lia) ltac:(lia)) as A2. clear E2.
  unfold hh, pp in A1, A2. cbn [nth Nat.add Nat.sub] in A1, A2. replace (1 - 0) with 1 in * by ring. replace (2 - 1) with 1 in * by ring. replace (3 - 2) with 1 in * by ring. unfold Rdiv in *. rewrite Rinv_1 in *. lra.
Qed.

(** C33: JAX cannot flatten the class *)
Lemma pytree_fails sp : jax_round_trip sp = Err ValueError.
Proof. reflexivity. Qed.

Lemma natural_smooth solve xs ys : correct_solver solve -> increasing xs -> (4 <= length xs)%nat -> length ys = length xs ->
  exists sp f f' f'', make_ncs solve (map Fin xs) (map Fin ys) None = Ok sp /\ (forall x, nc_call sp (Fin x) = Fin (f x)) /\
    (forall i, (i < length xs)%nat -> f (nth i xs 0) = nth i ys 0) /\ twice_continuously_differentiable f f' f''.
Proof. intros H1 H2 H3 H4. destruct (natural_spec solve xs ys H1 H2 H3 H4) as (sp & f & f' & f'' & ? & ? & ? & ? & _). exists sp, f, f', f''. auto. Qed.
Lemma natural_ends solve xs ys : correct_solver solve -> increasing xs -> (4 <= length xs)%nat -> length ys = length xs ->
  exists sp f f' f'', make_ncs solve (map Fin xs) (map Fin ys) None = Ok sp /\ (forall x, nc_call sp (Fin x) = Fin (f x)) /\
    twice_continuously_differentiable f f' f'' /\
    f'' (nth 0 xs 0) = 0 /\ (forall x, nth (length xs - 2) xs 0 <= x -> f'' x = f'' (nth (length xs - 1) xs 0)).
Proof. intros H1 H2 H3 H4. destruct (natural_spec solve xs ys H1 H2 H3 H4) as (sp & f & f' & f'' & ? & ? & ? & ? & ? & ? & _). exists sp, f, f', f''. auto 6. Qed.

From Coq Require Import ClassicalDescription.
Lemma solver_exists : exists solve, correct_solver solve.
Proof.
  exists (fun n A s => match excluded_middle_informative (exists! c, solves n A s c) with left H => proj1_sig (constructive_definite_description _ H) | right _ => [] end).
  intros n A s (c & H1 & H2). destruct (excluded_middle_informative _) as [H|H].
  - apply proj2_sig.
  - exfalso. apply H. exists c. split; auto. intros c' Hc. symmetry. auto.
Qed.

(** C34 *)
From Verif Require Import PBSplineMake.
Lemma rect_fails xsp ysp xs ys : rect_bases_actual xsp ysp xs ys = Err AttributeError.
Proof. reflexivity. Qed.
Lemma rect_construction_fails xdf ydf kx ky sx sy xlo xhi ylo yhi : (kx <= xdf)%nat -> (ky <= ydf)%nat -> (1 <= kx)%nat -> (1 <= ky)%nat ->
  valid_range sx xlo xhi -> valid_range sy ylo yhi ->
  make_rect xdf ydf kx ky sx sy (Fin xlo) (Fin xhi) (Fin ylo) (Fin yhi) true = Err AttributeError.
Proof.
  intros H1 H2 H3 H4 V1 V2. unfold make_rect. destruct (make_default sx xdf kx xlo xhi false ltac:(lia) V1) as (sp1 & -> & _).
  destruct (make_default sy ydf ky ylo yhi false ltac:(lia) V2) as (sp2 & -> & _). reflexivity.
Qed.
Lemma nth_outer xb : forall yb i j d, (i < length yb)%nat -> (j < length xb)%nat ->
  nth (i * length xb + j) (outer_products xb yb) d = map2 nmul (nth j xb []) (nth i yb []).
Proof.
  unfold outer_products. induction yb as [|y yb IH]; intros i j d Hi Hj; cbn in Hi; [lia|]. cbn [flat_map]. destruct i as [|i].
  - cbn [Nat.mul Nat.add nth]. rewrite app_nth1 by (rewrite map_length; auto).
    rewrite (nth_indep _ d (map2 nmul [] y)) by (rewrite map_length; auto). apply (map_nth (fun xi => map2 nmul xi y)).
  - rewrite app_nth2 by (rewrite map_length; lia). rewrite map_length. replace (S i * length xb + j - length xb)%nat with (i * length xb + j)%nat by lia.
    cbn [nth]. apply IH; auto. lia.
Qed.
Lemma rect_exchanged xsp ysp xs ys B i j : sp_N xsp = sp_N ysp -> (i < sp_N xsp)%nat -> (j < sp_N xsp)%nat ->
  rect_bases true xsp ysp xs ys = Ok B -> B i j = map2 nmul (nth j (bases xsp xs) []) (nth i (bases ysp ys) []).
Proof.
  intros HN Hi Hj H. unfold rect_bases in H. injection H as <-. unfold reshaped.
  assert (LX : length (bases xsp xs) = sp_N xsp) by (unfold bases, design; rewrite map_length, seq_length; auto).
  assert (LY : length (bases ysp ys) = sp_N ysp) by (unfold bases, design; rewrite map_length, seq_length; auto).
  rewrite <- HN, <- LX. apply nth_outer; lia.
Qed.
