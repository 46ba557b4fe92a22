(** Least-squares fit with the B-spline basis of BSpline. *)
From Coq Require Import Lia Lra.
From Verif Require Import NumFacts ArrFacts PBSplineMake SpecSpline.
From Verif Require Export PLeast.
From Verif Require Export Spec.
Open Scope R_scope.

Lemma bases_fin n k ts interior a b nrm : (1 <= k)%nat -> length ts = (n + k)%nat -> a < b -> spaced_knots ts ->
  exists sp, make_spline KB n k (Some (map Fin ts)) interior (Fin a) (Fin b) nrm = Ok sp /\ forall xs,
    bases sp (map Fin xs) = map (map Fin) (map (fun i => map (fun x => if (Rleb a x && Rleb x b)%bool then Bspline (fun m => nth m ts 0) k i x else 0) xs) (seq 0 n)).
Proof.
  intros Hk HL HAB HT.
  assert (Em : map (coord KB) ts = ts) by (rewrite <- (map_id ts) at 2; apply map_ext; reflexivity).
  destruct (textbook KB n k ts interior a b nrm (or_introl eq_refl) Hk HL) as (sp & E & G); [split; [auto|discriminate]|rewrite Em; auto|discriminate|].
  exists sp. split; [auto|]. intros xs.
  assert (Lr : length (bases sp (map Fin xs)) = n /\ forall i, (i < n)%nat -> length (nth i (bases sp (map Fin xs)) []) = length xs).
  { unfold make_spline in E. cbn [logx option_map make_knots rbind] in E. rewrite map_length, HL, Nat.eqb_refl in E. cbn [negb] in E. injection E as <-.
    unfold bases, design. cbn [sp_kind sp_N sp_order sp_lo sp_hi sp_knots]. split; [rewrite map_length, seq_length; auto|]. intros i Hi.
    set (f := fun i => map _ _). rewrite (nth_indep _ [] (f O)) by (rewrite map_length, seq_length; auto). rewrite map_nth. unfold f. rewrite !map_length. auto. }
  destruct Lr as [L1 L2].
  apply (nth_ext _ _ [] []); [rewrite L1, !map_length, seq_length; auto|]. rewrite L1. intros i Hi.
  set (f := fun i : nat => map (fun x => if (Rleb a x && Rleb x b)%bool then Bspline (fun m => nth m ts 0) k i x else 0) xs).
  rewrite map_map. rewrite (nth_indep (map _ _) [] (map Fin (f O))) by (rewrite map_length, seq_length; auto). rewrite (map_nth (fun i => map Fin (f i))), seq_nth by auto. cbn [Nat.add]. unfold f.
  apply (nth_ext _ _ NaN NaN); [rewrite L2 by auto; rewrite !map_length; auto|]. rewrite L2 by auto. intros j Hj.
  set (u := fun x => if (Rleb a x && Rleb x b)%bool then Bspline (fun m => nth m ts 0) k i x else 0). rewrite map_map.
  rewrite (nth_indep (map _ _) NaN (Fin (u 0))) by (rewrite map_length; auto). rewrite (map_nth (fun x => Fin (u x))). unfold u.
  destruct (Rle_dec a (nth j xs 0)) as [A|A]; [destruct (Rle_dec (nth j xs 0) b) as [B|B]|].
  - rewrite !Rleb_t by auto. destruct (G xs i j Hj Hi (conj A B)) as (v & -> & -> & _). rewrite Em. reflexivity.
  - rewrite (Rleb_f (nth j xs 0)), andb_false_r by lra. apply (zero_out n k _ _ a b nrm sp E); auto. lra.
  - rewrite (Rleb_f a) by lra. apply (zero_out n k _ _ a b nrm sp E); auto. lra.
Qed.

Lemma least_squares_spline : forall inv n k ts interior a b nrm, (1 <= k)%nat -> length ts = (n + k)%nat -> a < b -> spaced_knots ts ->
  exists sp, make_spline KB n k (Some (map Fin ts)) interior (Fin a) (Fin b) nrm = Ok sp /\
  forall xs ys G', length ys = length xs ->
    let B := map (fun i => map (fun x => if (Rleb a x && Rleb x b)%bool then Bspline (fun m => nth m ts 0) k i x else 0) xs) (seq 0 n) in
    inv (map (map Fin) (gram B)) = map (map Fin) G' -> rectangular n n G' -> right_inverse n (gram B) G' ->
    exists alpha fit, get_coefficients inv sp (map Fin xs) (map Fin ys) = (map Fin alpha, map Fin fit, map (map Fin) (map (column B) (seq 0 (length xs)))) /\
      length alpha = n /\ fit = map (combination B alpha) (seq 0 (length xs)) /\
      (forall beta, length beta = n -> squared_error B ys alpha <= squared_error B ys beta) /\
      (forall beta, length beta = n -> (forall j, (j < length xs)%nat -> nth j ys 0 = combination B beta j) -> alpha = beta).
Proof.
  intros inv n k ts interior a b nrm Hk HL HAB HT. destruct (bases_fin n k ts interior a b nrm Hk HL HAB HT) as (sp & E & G). exists sp. split; [auto|].
  intros xs ys G' Hy B Ei HG Hi. refine (least_squares inv sp xs ys B n G' (G xs) _ Hy Ei HG Hi). split.
  - unfold B. rewrite map_length, seq_length. auto.
  - apply Forall_forall. intros r Hr. unfold B in Hr. apply in_map_iff in Hr as (i & <- & _). apply map_length.
Qed.
