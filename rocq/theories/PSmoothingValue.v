From Verif Require Import PSmoothing SpecDiff.
Open Scope list_scope.
Open Scope R_scope.
Lemma rdiffn_length n : forall l, length (rdiffn n l) = (length l - n)%nat.
Proof. induction n as [|n IH]; intros l; [cbn; lia|]. cbn [rdiffn]. rewrite IH, rdiff_length. lia. Qed.
Lemma rdiffn_nth n : forall l i, (i + n < length l)%nat -> nth i (rdiffn n l) 0 = difference n (fun j => nth j l 0) i.
Proof.
  induction n as [|n IH]; intros l i H; [reflexivity|]. rewrite rdiffn_snd, rdiff_nth by (rewrite rdiffn_length; lia). rewrite !IH by lia. reflexivity.
Qed.
Lemma difference_penalty_value c v n : apply_difference_prior (map Fin c) (Fin v) n = Fin (- (v / 2) * Rlsum (map (fun i => difference n (fun j => nth j c 0) i ^ 2) (seq 0 (length c - n)))).
Proof.
  rewrite apply_fin. apply (f_equal Fin).
  assert (E : PSmoothing.sumsq (rdiffn n c) = Rlsum (map (fun i => difference n (fun j => nth j c 0) i ^ 2) (seq 0 (length c - n)))).
  { unfold PSmoothing.sumsq. apply (f_equal Rlsum). rewrite <- (rdiffn_length n c).
    assert (G : forall l : list R, l = map (fun i => nth i l 0) (seq 0 (length l))).
    { induction l as [|x l IH]; [reflexivity|]. cbn [length seq map nth]. f_equal. rewrite <- seq_shift, map_map. exact IH. }
    rewrite (G (rdiffn n c)) at 1. rewrite map_map. apply map_ext_in. intros i Hi. apply in_seq in Hi. rewrite rdiffn_length in Hi. rewrite rdiffn_nth by lia. ring. }
  rewrite E. field.
Qed.
