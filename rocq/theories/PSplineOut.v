(** Basis values outside the range, for every class. *)
From Coq Require Import Lra Lia.
From Verif Require Import ArrFacts NumFacts PBSplineMake PBSplineProj PBSplineOut.
From Verif Require Import Spec.
Open Scope R_scope.

Lemma oob_zero s ks k a b i x : logy s = false -> valid_range s a b -> (x < a \/ b < x) -> (logx s = true -> 0 <= x) ->
  basis_value s ks k (Fin (coord s a)) (Fin (coord s b)) i (Fin x) = Fin 0.
Proof.
  intros HY [HAB HL] HX HP. unfold basis_value.
  assert (HO : forall u w, nlt u (Fin (coord s a)) = true \/ ngt u (Fin (coord s b)) = true -> oob_where (Fin (coord s a)) (Fin (coord s b)) u (Fin 0) w = Fin 0).
  { intros u w Hu. unfold oob_where. destruct Hu as [->| ->]; [|rewrite Bool.orb_true_r]; reflexivity. }
  unfold ngt in *. destruct s; try discriminate; cbn [logx] in *; unfold coord in *; cbn [logx] in *; apply HO; cbn [nlt].
  1, 2: destruct HX; [left|right]; apply Rltb_t; auto.
  specialize (HL eq_refl). specialize (HP eq_refl). destruct (Req_dec x 0) as [->|NZ]; [left; rewrite nlog_zero; reflexivity|].
  rewrite nlog_fin by lra. cbn [nlt]. destruct HX; [left|right]; apply Rltb_t, ln_increasing; lra.
Qed.
Lemma out_values s n k knots interior a b nrm sp : valid_range s a b -> make_spline s n k knots interior (Fin a) (Fin b) nrm = Ok sp ->
  forall xs i j, (j < length xs)%nat -> (i < n)%nat -> nth j xs 0 < a \/ b < nth j xs 0 -> (logx s = true -> 0 <= nth j xs 0) ->
  nth j (nth i (bases sp (map Fin xs)) []) NaN = if logy s then NInf else Fin 0.
Proof.
  intros HV H xs i j Hj Hi HX HP. destruct (make_inv _ _ _ _ _ _ _ _ _ H) as (ks & lo & hi & grid & vols & LK & -> & _ & _ & EL & EH & _). unfold bases. cbn [sp_kind sp_N sp_order sp_lo sp_hi sp_knots].
  unfold design. set (f := fun i => map _ _). rewrite (nth_indep _ [] (f O)) by (rewrite map_length, seq_length; auto). rewrite map_nth, seq_nth by auto. cbn [Nat.add]. unfold f.
  rewrite (nth_indep _ NaN (basis_value s ks k lo hi i (Fin 0))) by (rewrite !map_length; auto).
  rewrite (map_nth (basis_value s ks k lo hi i)), map_nth. pose proof HV as [HAB HL].
  rewrite (coord_num s a) in EL by auto. rewrite (coord_num s b) in EH by (intros E; specialize (HL E); lra). subst lo hi.
  destruct (logy s) eqn:EY; [apply oob_entry|apply oob_zero]; auto.
Qed.
