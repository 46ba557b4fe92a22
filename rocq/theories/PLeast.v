(** BasisSpline.get_coefficients (interpolation.py:177-193) is the least-squares fit. *)
From Coq Require Import Lia Lra.
From Verif Require Import NumFacts ArrFacts PSmoothing PAnalysisSums.
From Verif Require Export MSpline SpecLeast.
From Verif Require Export Spec.
Open Scope R_scope.

Definition Sm (n : nat) (f : nat -> R) : R := Rlsum (map f (seq 0 n)).
Lemma Sm_plus n f g : Sm n (fun i => f i + g i) = Sm n f + Sm n g. Proof. apply Rlsum_plus. Qed.
Lemma Sm_scal n c f : Sm n (fun i => c * f i) = c * Sm n f. Proof. apply Rlsum_scalf. Qed.
Lemma Sm_ext n f g : (forall i, (i < n)%nat -> f i = g i) -> Sm n f = Sm n g.
Proof. intros H. unfold Sm. f_equal. apply map_ext_in. intros i Hi. apply in_seq in Hi. apply H. lia. Qed.
Lemma Sm_minus n f g : Sm n (fun i => f i - g i) = Sm n f - Sm n g.
Proof. unfold Rminus. rewrite Sm_plus. f_equal. rewrite (Sm_ext n _ (fun i => -1 * g i)) by (intros; ring). rewrite Sm_scal. ring. Qed.
Lemma Sm_S n f : Sm (S n) f = Sm n f + f n.
Proof. unfold Sm. rewrite seq_S, map_app, Rlsum_app. cbn. ring. Qed.
Lemma Sm_zero n f : (forall i, (i < n)%nat -> f i = 0) -> Sm n f = 0.
Proof. intros H. rewrite (Sm_ext n f (fun i => 0 * 0)) by (intros; rewrite H by auto; ring). rewrite (Sm_scal n 0 (fun _ => 0)). ring. Qed.
Lemma Sm_nonneg n f : (forall i, (i < n)%nat -> 0 <= f i) -> 0 <= Sm n f.
Proof. intros H. apply Rlsum_nonneg. intros x Hx. apply in_map_iff in Hx. destruct Hx as (i & <- & Hi). apply in_seq in Hi. apply H. lia. Qed.
Lemma Sm_swap n m f : Sm n (fun i => Sm m (fun j => f i j)) = Sm m (fun j => Sm n (fun i => f i j)).
Proof.
  induction n as [|n IH].
  - unfold Sm at 1. cbn. symmetry. apply Sm_zero. reflexivity.
  - rewrite Sm_S, IH. rewrite <- Sm_plus. apply Sm_ext. intros j _. rewrite Sm_S. reflexivity.
Qed.
Lemma Sm_delta n i f : (i < n)%nat -> Sm n (fun j => (if Nat.eqb i j then 1 else 0) * f j) = f i.
Proof.
  induction n as [|n IH]; intros H; [lia|]. rewrite Sm_S. destruct (Nat.eqb_spec i n) as [->|Hne].
  - rewrite Sm_zero; [ring|]. intros j Hj. destruct (Nat.eqb_spec n j); [lia|ring].
  - rewrite IH by lia. ring.
Qed.
Lemma dot_Sm k : forall a b, length a = k -> length b = k -> dot a b = Sm k (fun i => nth i a 0 * nth i b 0).
Proof.
  induction k as [|k IH]; intros a b La Lb.
  - destruct a; [|discriminate]. reflexivity.
  - destruct a as [|x a], b as [|y b]; try discriminate. injection La as La. injection Lb as Lb.
    unfold dot in *. cbn [map2 Rlsum fold_right]. change (Rlsum (?z :: ?l)) with (z + Rlsum l). rewrite (IH a b La Lb).
    unfold Sm. cbn [seq map nth]. change (Rlsum (?z :: ?l)) with (z + Rlsum l). f_equal. rewrite <- seq_shift, map_map. reflexivity.
Qed.
Lemma column_nth k n B i j : rectangular k n B -> nth i (column B j) 0 = nth j (nth i B []) 0.
Proof.
  intros _. unfold column. destruct (Nat.lt_ge_cases i (length B)) as [H|H].
  - rewrite (nth_indep _ 0 (nth j [] 0)) by (rewrite map_length; auto). apply (map_nth (fun row => nth j row 0)).
  - rewrite nth_overflow by (rewrite map_length; auto). rewrite (nth_overflow B) by auto. destruct j; reflexivity.
Qed.
Lemma column_length B j : length (column B j) = length B. Proof. apply map_length. Qed.

Section Fit.
Variables (k n : nat) (B G' : list (list R)) (ys : list R).
Hypothesis HB : rectangular k n B.
Hypothesis HG' : rectangular k k G'.
Hypothesis Hy : length ys = n.
Hypothesis Hinv : right_inverse k (gram B) G'.
Notation b i j := (nth j (nth i B []) 0).
Notation h i j := (nth j (nth i G' []) 0).
Notation g i j := (Sm n (fun l => b i l * b j l)).
Notation v i := (Sm n (fun j => b i j * nth j ys 0)).
Definition lsq : list R := map (fun r => dot r ys) (map (fun r => map (fun j => dot r (column B j)) (seq 0 n)) G').
Lemma row_len i : (i < k)%nat -> length (nth i B []) = n.
Proof. intros H. destruct HB as [L F]. rewrite Forall_forall in F. apply F, nth_In. lia. Qed.
Lemma row_len' i : (i < k)%nat -> length (nth i G' []) = k.
Proof. intros H. destruct HG' as [L F]. rewrite Forall_forall in F. apply F, nth_In. lia. Qed.
Lemma gram_entry i j : (i < k)%nat -> (j < k)%nat -> nth j (nth i (gram B) []) 0 = g i j.
Proof.
  intros Hi Hj. destruct HB as [L F]. unfold gram.
  rewrite (nth_indep _ [] (map (fun r' => dot [] r') B)) by (rewrite map_length; lia).
  rewrite (map_nth (fun r => map (fun r' => dot r r') B)). rewrite (nth_indep _ 0 (dot (nth i B []) [])) by (rewrite map_length; lia).
  rewrite (map_nth (fun r' => dot (nth i B []) r')). rewrite (dot_Sm n) by (apply row_len; auto). reflexivity.
Qed.
Lemma gram_row_len i : (i < k)%nat -> length (nth i (gram B) []) = k.
Proof.
  intros Hi. destruct HB as [L F]. unfold gram. rewrite (nth_indep _ [] (map (fun r' => dot [] r') B)) by (rewrite map_length; lia).
  rewrite (map_nth (fun r => map (fun r' => dot r r') B)). rewrite map_length. auto.
Qed.
Lemma inv_entry i j : (i < k)%nat -> (j < k)%nat -> Sm k (fun l => g i l * h l j) = if Nat.eqb i j then 1 else 0.
Proof.
  intros Hi Hj. rewrite <- (Hinv i j Hi Hj). rewrite (dot_Sm k); [|apply gram_row_len; auto|rewrite column_length; apply HG'].
  apply Sm_ext. intros l Hl. rewrite gram_entry by auto. rewrite (column_nth k k) by auto. reflexivity.
Qed.
Lemma lsq_length : length lsq = k. Proof. unfold lsq. rewrite !map_length. apply HG'. Qed.
Lemma lsq_entry i : (i < k)%nat -> nth i lsq 0 = Sm k (fun l => h i l * v l).
Proof.
  intros Hi. unfold lsq. rewrite map_map. destruct HG' as [L F].
  set (f := fun r => dot (map (fun j => dot r (column B j)) (seq 0 n)) ys).
  rewrite (nth_indep _ 0 (f [])) by (rewrite map_length; lia). rewrite (map_nth f). unfold f.
  rewrite (dot_Sm n) by (rewrite ?map_length, ?seq_length; auto).
  transitivity (Sm n (fun j => Sm k (fun l => h i l * (b l j * nth j ys 0)))).
  - apply Sm_ext. intros j Hj. rewrite (nth_indep _ 0 (dot (nth i G' []) (column B 0))) by (rewrite map_length, seq_length; auto).
    rewrite (map_nth (fun j => dot (nth i G' []) (column B j))), seq_nth by auto. cbn [Nat.add].
    rewrite (dot_Sm k); [|apply row_len'; auto|rewrite column_length; apply HB].
    rewrite Rmult_comm, <- Sm_scal. apply Sm_ext. intros l Hl. rewrite (column_nth k n) by auto. ring.
  - rewrite Sm_swap. apply Sm_ext. intros l Hl. rewrite Sm_scal. reflexivity.
Qed.
(** normal equations *)
Lemma normal i : (i < k)%nat -> Sm k (fun j => g i j * nth j lsq 0) = v i.
Proof.
  intros Hi. transitivity (Sm k (fun j => Sm k (fun l => g i j * h j l * v l))).
  - apply Sm_ext. intros j Hj. rewrite lsq_entry by auto. rewrite <- Sm_scal. apply Sm_ext. intros l Hl. ring.
  - rewrite Sm_swap. transitivity (Sm k (fun l => (if Nat.eqb i l then 1 else 0) * v l)).
    + apply Sm_ext. intros l Hl. rewrite <- (inv_entry i l Hi Hl). rewrite Rmult_comm, <- Sm_scal. apply Sm_ext. intros j Hj. ring.
    + apply (Sm_delta k i (fun l => v l)); auto.
Qed.
Lemma combination_Sm a j : length a = k -> combination B a j = Sm k (fun i => b i j * nth i a 0).
Proof.
  intros La. unfold combination. rewrite (dot_Sm k); [|rewrite column_length; apply HB|auto]. apply Sm_ext. intros i Hi. rewrite (column_nth k n) by auto. reflexivity.
Qed.
Lemma residual_orthogonal i : (i < k)%nat -> Sm n (fun j => b i j * (nth j ys 0 - combination B lsq j)) = 0.
Proof.
  intros Hi. rewrite (Sm_ext n _ (fun j => b i j * nth j ys 0 - b i j * combination B lsq j)) by (intros; ring). rewrite Sm_minus.
  rewrite <- (normal i Hi). apply Rminus_diag_eq. symmetry.
  transitivity (Sm n (fun j => Sm k (fun l => b i j * b l j * nth l lsq 0))).
  - apply Sm_ext. intros j Hj. rewrite combination_Sm by apply lsq_length. rewrite <- Sm_scal. apply Sm_ext. intros; ring.
  - rewrite Sm_swap. apply Sm_ext. intros l Hl. rewrite Rmult_comm, <- Sm_scal. apply Sm_ext. intros; ring.
Qed.
Lemma lsq_optimal beta : length beta = k -> squared_error B ys lsq <= squared_error B ys beta.
Proof.
  intros Lb. unfold squared_error. rewrite Hy.
  change (Sm n (fun j => (nth j ys 0 - combination B lsq j) ^ 2) <= Sm n (fun j => (nth j ys 0 - combination B beta j) ^ 2)).
  set (r := fun j => nth j ys 0 - combination B lsq j). set (d := fun j => combination B beta j - combination B lsq j).
  assert (E : Sm n (fun j => (nth j ys 0 - combination B beta j) ^ 2) = Sm n (fun j => r j ^ 2) + Sm n (fun j => d j ^ 2) - 2 * Sm n (fun j => r j * d j)).
  { rewrite <- Sm_scal, <- Sm_plus, <- Sm_minus. apply Sm_ext. intros j Hj. unfold r, d. ring. }
  assert (Z : Sm n (fun j => r j * d j) = 0).
  { transitivity (Sm n (fun j => Sm k (fun i => (nth i beta 0 - nth i lsq 0) * (b i j * r j)))).
    - apply Sm_ext. intros j Hj. unfold d. rewrite (combination_Sm beta) by auto. rewrite (combination_Sm lsq) by apply lsq_length.
      rewrite <- Sm_minus, <- Sm_scal. apply Sm_ext. intros; ring.
    - rewrite Sm_swap. apply Sm_zero. intros i Hi. rewrite Sm_scal. unfold r. rewrite residual_orthogonal by auto. ring. }
  rewrite E, Z. assert (0 <= Sm n (fun j => d j ^ 2)) by (apply Sm_nonneg; intros; apply pow2_ge_0). fold (r 0%nat). change (Sm n (fun j => r j ^ 2) <= Sm n (fun j => r j ^ 2) + Sm n (fun j => d j ^ 2) - 2 * 0). lra.
Qed.
(** exact recovery *)
Lemma lsq_recovers beta : length beta = k -> (forall j, (j < n)%nat -> nth j ys 0 = combination B beta j) -> lsq = beta.
Proof.
  intros Lb E. apply (nth_ext _ _ 0 0); [rewrite lsq_length; auto|]. rewrite lsq_length. intros i Hi.
  assert (Gb : forall i, (i < k)%nat -> Sm k (fun j => g i j * nth j beta 0) = v i).
  { intros l Hl. symmetry. transitivity (Sm n (fun j => Sm k (fun m => b l j * b m j * nth m beta 0))).
    - apply Sm_ext. intros j Hj. rewrite E by auto. rewrite combination_Sm by auto. rewrite <- Sm_scal. apply Sm_ext. intros; ring.
    - rewrite Sm_swap. apply Sm_ext. intros m Hm. rewrite (Rmult_comm (Sm n _)), <- Sm_scal. apply Sm_ext. intros; ring. }
  (* the Gram matrix is symmetric, so the transpose of its right inverse is a left inverse *)
  assert (Li : forall w : list R, Sm k (fun l => h l i * Sm k (fun j => g l j * nth j w 0)) = nth i w 0).
  { intros w. transitivity (Sm k (fun j => (if Nat.eqb i j then 1 else 0) * nth j w 0)); [|apply (Sm_delta k i (fun j => nth j w 0)); auto].
    transitivity (Sm k (fun l => Sm k (fun j => h l i * g l j * nth j w 0))).
    - apply Sm_ext. intros l Hl. rewrite <- Sm_scal. apply Sm_ext. intros; ring.
    - rewrite Sm_swap. apply Sm_ext. intros j Hj. rewrite Nat.eqb_sym, <- (inv_entry j i Hj Hi). rewrite (Rmult_comm _ (nth j w 0)), <- Sm_scal. apply Sm_ext.
      intros l Hl. replace (g l j) with (g j l) by (apply Sm_ext; intros; ring). ring. }
  rewrite <- (Li lsq), <- (Li beta). apply Sm_ext. intros l Hl. rewrite normal, Gb by auto. reflexivity.
Qed.
End Fit.

Lemma transpose_fin n B : Forall (fun row => length row = n) B -> transpose n (map (map Fin) B) = map (map Fin) (map (column B) (seq 0 n)).
Proof.
  intros F. unfold transpose. rewrite map_map. apply map_ext_in. intros j Hj. apply in_seq in Hj. unfold column. rewrite !map_map. apply map_ext_in. intros r Hr.
  rewrite Forall_forall in F. rewrite (nth_indep _ NaN (Fin 0)) by (rewrite map_length, F by auto; lia). rewrite map_nth. reflexivity.
Qed.
Lemma mat_mul_fin A Bc : mat_mul (map (map Fin) A) (map (map Fin) Bc) = map (map Fin) (map (fun r => map (fun c => dot r c) Bc) A).
Proof.
  unfold mat_mul. rewrite !map_map. apply map_ext. intros r. rewrite !map_map. apply map_ext. intros c. apply ndot_fin.
Qed.
Lemma mat_vec_fin A v : mat_vec (map (map Fin) A) (map Fin v) = map Fin (map (fun r => dot r v) A).
Proof. unfold mat_vec. rewrite !map_map. apply map_ext. intros r. apply ndot_fin. Qed.

Lemma least_squares : forall inv sp xs ys B k G', bases sp (map Fin xs) = map (map Fin) B -> rectangular k (length xs) B -> length ys = length xs ->
  inv (map (map Fin) (gram B)) = map (map Fin) G' -> rectangular k k G' -> right_inverse k (gram B) G' ->
  exists alpha fit, get_coefficients inv sp (map Fin xs) (map Fin ys) = (map Fin alpha, map Fin fit, map (map Fin) (map (column B) (seq 0 (length xs)))) /\
    length alpha = k /\ fit = map (combination B alpha) (seq 0 (length xs)) /\
    (forall beta, length beta = k -> squared_error B ys alpha <= squared_error B ys beta) /\
    (forall beta, length beta = k -> (forall j, (j < length xs)%nat -> nth j ys 0 = combination B beta j) -> alpha = beta).
Proof.
  intros inv sp xs ys B k G' Eb HB Hy Ei HG Hi. exists (lsq (length xs) B G' ys), (map (combination B (lsq (length xs) B G' ys)) (seq 0 (length xs))).
  split; [|split; [apply lsq_length; auto|split; [auto|split]]].
  - unfold get_coefficients. cbv zeta. rewrite Eb, map_length, mat_mul_fin. fold (gram B). rewrite Ei. rewrite transpose_fin by apply HB. rewrite mat_mul_fin, mat_vec_fin.
    assert (El : map (fun r => dot r ys) (map (fun r => map (fun c => dot r c) (map (column B) (seq 0 (length xs)))) G') = lsq (length xs) B G' ys).
    { unfold lsq. f_equal. apply map_ext. intros r. rewrite map_map. reflexivity. }
    rewrite El, mat_vec_fin. rewrite !map_map. reflexivity.
  - intros beta Lb. apply (lsq_optimal k (length xs)); auto.
  - intros beta Lb E. apply (lsq_recovers k (length xs)); auto.
Qed.
