(** The natural cubic spline: existence of the coefficients, interpolation, two continuous derivatives, ends. *)
From Verif Require Export MSpline ArrFacts PSmoothing Calc Spec.
Open Scope R_scope.

(** ** gluing *)
Lemma glue_derive (f p g : R -> R) (x l d : R) : 0 < d -> (forall y, Rabs (y - x) < d -> f y = p y \/ f y = g y) ->
  f x = p x -> f x = g x -> is_derive p x l -> is_derive g x l -> is_derive f x l.
Proof.
  intros Hd HC E1 E2 D1 D2. apply is_derive_Reals. apply is_derive_Reals in D1. apply is_derive_Reals in D2. intros eps He.
  destruct (D1 eps He) as [d1 H1]. destruct (D2 eps He) as [d2 H2].
  assert (P : 0 < Rmin d (Rmin d1 d2)) by (apply Rmin_pos; auto; apply Rmin_pos; [apply (cond_pos d1)|apply (cond_pos d2)]).
  exists (mkposreal _ P). intros h Hh Hlt. cbn in Hlt.
  assert (Rabs h < d) by (eapply Rlt_le_trans; [exact Hlt|apply Rmin_l]).
  assert (Rabs h < d1) by (eapply Rlt_le_trans; [exact Hlt|eapply Rle_trans; [apply Rmin_r|apply Rmin_l]]).
  assert (Rabs h < d2) by (eapply Rlt_le_trans; [exact Hlt|eapply Rle_trans; [apply Rmin_r|apply Rmin_r]]).
  destruct (HC (x + h)) as [E|E]; [replace (x + h - x) with h by ring; auto| |]; rewrite E; [rewrite E1|rewrite E2]; auto.
Qed.
Lemma glue_cont (f p g : R -> R) (x d : R) : 0 < d -> (forall y, Rabs (y - x) < d -> f y = p y \/ f y = g y) ->
  f x = p x -> f x = g x -> continuous p x -> continuous g x -> continuous f x.
Proof.
  intros Hd HC E1 E2 D1 D2. apply continuity_pt_filterlim. apply continuity_pt_filterlim in D1. apply continuity_pt_filterlim in D2.
  intros eps He. destruct (D1 eps He) as (d1 & P1 & H1). destruct (D2 eps He) as (d2 & P2 & H2).
  exists (Rmin d (Rmin d1 d2)). split; [apply Rmin_pos; auto; apply Rmin_pos; auto|]. intros y [Hy Hlt]. cbn in *. unfold R_dist in *.
  assert (Rabs (y - x) < d) by (eapply Rlt_le_trans; [exact Hlt|apply Rmin_l]).
  assert (Rabs (y - x) < d1) by (eapply Rlt_le_trans; [exact Hlt|eapply Rle_trans; [apply Rmin_r|apply Rmin_l]]).
  assert (Rabs (y - x) < d2) by (eapply Rlt_le_trans; [exact Hlt|eapply Rle_trans; [apply Rmin_r|apply Rmin_r]]).
  destruct (HC y) as [E|E]; auto; rewrite E; [rewrite E1; apply H1|rewrite E2; apply H2]; auto.
Qed.

(** ** the interval index *)
Definition cnt (ks : list R) (x : R) : nat := length (filter (fun k => Rleb k x) ks).
Lemma filter_none ks x : (forall k, In k ks -> x < k) -> cnt ks x = 0%nat.
Proof.
  intros H. unfold cnt. induction ks as [|k ks IH]; auto. cbn [filter]. rewrite Rleb_f by (apply H; left; auto). apply IH. intros; apply H; right; auto.
Qed.
Lemma increasing_hd a l : increasing (a :: l) -> forall k, In k l -> a < k.
Proof.
  revert a. induction l as [|b l IH]; intros a H k Hk; [destruct Hk|]. destruct H as [H1 H2]. destruct Hk as [<-|Hk]; auto.
  apply Rlt_trans with b; auto.
Qed.
Lemma cnt_spec ks x : increasing ks -> (forall j, (j < cnt ks x)%nat -> nth j ks 0 <= x) /\ (forall j, (cnt ks x <= j < length ks)%nat -> x < nth j ks 0) /\ (cnt ks x <= length ks)%nat.
Proof.
  induction ks as [|k ks IH]; intros H; [cbn; repeat split; intros; lia|]. unfold cnt in *. cbn [filter].
  assert (HI : increasing ks) by (destruct ks; [exact I|apply H]). destruct (IH HI) as (A & B & D).
  destruct (Rle_dec k x) as [L|L].
  - rewrite Rleb_t by auto. cbn [length]. split; [|split]; cbn [length]; [| |lia].
    + intros [|j] Hj; cbn [nth]; auto. apply A. lia.
    + intros [|j] Hj; cbn [length] in Hj; [lia|]. cbn [nth]. apply B. lia.
  - rewrite Rleb_f by lra. fold (cnt ks x). rewrite (filter_none ks x); [|intros j Hj; pose proof (increasing_hd k ks H j Hj); lra].
    split; [intros; lia|split; [|lia]]. intros [|j] Hj; cbn [nth]; [lra|]. cbn [length] in Hj.
    pose proof (increasing_hd k ks H (nth j ks 0) (@nth_In R j ks 0 ltac:(lia))). lra.
Qed.
Definition idx (ks : list R) (x : R) : nat := Nat.min (cnt ks x - 1) (length ks - 2).
Lemma idx_model ks x : nc_index (map Fin ks) (Fin x) = idx ks x.
Proof.
  unfold nc_index, idx, cnt. rewrite map_length. f_equal. f_equal. induction ks as [|k ks IH]; auto. cbn [map filter nle]. destruct (Rleb k x); cbn [length]; congruence.
Qed.
Lemma idx_spec ks x : increasing ks -> (2 <= length ks)%nat ->
  (S (idx ks x) < length ks)%nat /\ ((0 < idx ks x)%nat -> nth (idx ks x) ks 0 <= x) /\ ((idx ks x < length ks - 2)%nat -> x < nth (S (idx ks x)) ks 0).
Proof.
  intros H HL. destruct (cnt_spec ks x H) as (A & B & D). unfold idx. split; [lia|]. split.
  - intros P. apply A. lia.
  - intros P. apply B. lia.
Qed.
Lemma idx_unique ks x i : increasing ks -> (S i < length ks)%nat -> ((0 < i)%nat -> nth i ks 0 <= x) -> ((i < length ks - 2)%nat -> x < nth (S i) ks 0) -> idx ks x = i.
Proof.
  intros H HL A B. destruct (idx_spec ks x H ltac:(lia)) as (L & A' & B'). destruct (lt_eq_lt_dec (idx ks x) i) as [[Q|Q]|Q]; auto; exfalso.
  - specialize (B' ltac:(lia)). specialize (A ltac:(lia)). destruct (Nat.eq_dec (S (idx ks x)) i) as [E|E]; [rewrite E in B'; lra|].
    pose proof (increasing_lt ks (S (idx ks x)) i 0 H ltac:(lia) ltac:(lia)). lra.
  - specialize (B ltac:(lia)). specialize (A' ltac:(lia)). destruct (Nat.eq_dec (S i) (idx ks x)) as [E|E]; [rewrite E in B; lra|].
    pose proof (increasing_lt ks (S i) (idx ks x) 0 H ltac:(lia) ltac:(lia)). lra.
Qed.
Lemma idx_near ks x : increasing ks -> (2 <= length ks)%nat -> exists d, 0 < d /\
  ((forall y, Rabs (y - x) < d -> idx ks y = idx ks x) \/
   ((0 < idx ks x)%nat /\ nth (idx ks x) ks 0 = x /\ forall y, Rabs (y - x) < d -> idx ks y = idx ks x \/ idx ks y = (idx ks x - 1)%nat)).
Proof.
  intros H HL. destruct (idx_spec ks x H HL) as (L & A & B). set (i := idx ks x) in *.
  set (dr := if Nat.ltb i (length ks - 2) then nth (S i) ks 0 - x else 1).
  assert (PR : 0 < dr) by (unfold dr; destruct (Nat.ltb_spec i (length ks - 2)); [specialize (B ltac:(auto)); lra|lra]).
  assert (RR : forall y, y < x + dr -> (i < length ks - 2)%nat -> y < nth (S i) ks 0).
  { intros y Hy Hi. unfold dr in Hy. destruct (Nat.ltb_spec i (length ks - 2)); [lra|lia]. }
  assert (AB : forall y d, Rabs (y - x) < d -> x - d < y < x + d) by (intros y d Hy; apply Rabs_def2 in Hy; lra).
  destruct (Nat.eq_dec i 0) as [Z|NZ].
  - exists dr. split; auto. left. intros y Hy. apply AB in Hy. apply idx_unique; auto; [intros; lia|intros; apply RR; [lra|auto]].
  - specialize (A ltac:(lia)). destruct (Req_dec (nth i ks 0) x) as [E|E].
    + pose proof (increasing_lt ks (i - 1) i 0 H ltac:(lia) ltac:(lia)) as Q. exists (Rmin dr (nth i ks 0 - nth (i - 1) ks 0)). split; [apply Rmin_pos; lra|].
      right. split; [lia|]. split; auto. intros y Hy.
      pose proof (Rmin_l dr (nth i ks 0 - nth (i - 1) ks 0)). pose proof (Rmin_r dr (nth i ks 0 - nth (i - 1) ks 0)). apply AB in Hy.
      destruct (Rle_dec x y).
      * left. apply idx_unique; auto; [intros; lra|intros; apply RR; [lra|auto]].
      * right. apply idx_unique; auto; [lia|intros; lra|]. intros. replace (S (i - 1)) with i by lia. lra.
    + exists (Rmin dr (x - nth i ks 0)). split; [apply Rmin_pos; lra|]. left. intros y Hy.
      pose proof (Rmin_l dr (x - nth i ks 0)). pose proof (Rmin_r dr (x - nth i ks 0)). apply AB in Hy. apply idx_unique; auto; [intros; lra|intros; apply RR; [lra|auto]].
Qed.

(** ** piecewise functions *)
Section Piecewise.
Variable ks : list R.
Hypothesis HI : increasing ks.
Hypothesis HL : (2 <= length ks)%nat.
Definition pw (Q : nat -> R -> R) (x : R) : R := Q (idx ks x) x.
Definition joined (Q : nat -> R -> R) := forall i, (S (S i) < length ks)%nat -> Q i (nth (S i) ks 0) = Q (S i) (nth (S i) ks 0).
Lemma pw_derive Q Q' : joined Q -> joined Q' -> (forall i x, is_derive (Q i) x (Q' i x)) -> forall x, is_derive (pw Q) x (pw Q' x).
Proof.
  intros J J' D x. destruct (idx_near ks x HI HL) as (d & Pd & [N|(P & E & N)]).
  - apply (glue_derive _ (Q (idx ks x)) (Q (idx ks x)) x _ d); auto; [|apply D|apply D]. intros y Hy. left. unfold pw. rewrite N; auto.
  - destruct (idx_spec ks x HI HL) as (L & _). apply (glue_derive _ (Q (idx ks x)) (Q (idx ks x - 1)%nat) x _ d); auto; [| |apply D|].
    + intros y Hy. unfold pw. destruct (N y Hy) as [->| ->]; auto.
    + unfold pw. specialize (J (idx ks x - 1)%nat). replace (S (idx ks x - 1)) with (idx ks x) in J by lia. rewrite E in J. symmetry. apply J. lia.
    + unfold pw. specialize (J' (idx ks x - 1)%nat). replace (S (idx ks x - 1)) with (idx ks x) in J' by lia. rewrite E in J'. rewrite <- J' by lia. apply D.
Qed.
Lemma pw_cont Q : joined Q -> (forall i x, continuous (Q i) x) -> forall x, continuous (pw Q) x.
Proof.
  intros J D x. destruct (idx_near ks x HI HL) as (d & Pd & [N|(P & E & N)]).
  - apply (glue_cont _ (Q (idx ks x)) (Q (idx ks x)) x d); auto. intros y Hy. left. unfold pw. rewrite N; auto.
  - destruct (idx_spec ks x HI HL) as (L & _). apply (glue_cont _ (Q (idx ks x)) (Q (idx ks x - 1)%nat) x d); auto.
    + intros y Hy. unfold pw. destruct (N y Hy) as [->| ->]; auto.
    + unfold pw. specialize (J (idx ks x - 1)%nat). replace (S (idx ks x - 1)) with (idx ks x) in J by lia. rewrite E in J. symmetry. apply J. lia.
Qed.
Lemma pw_knot Q i : joined Q -> (i < length ks)%nat -> pw Q (nth i ks 0) = Q (Nat.min i (length ks - 2)) (nth i ks 0).
Proof.
  intros _ Hi. unfold pw. rewrite (idx_unique ks _ (Nat.min i (length ks - 2))); auto; [lia| |].
  - intros _. destruct (Nat.min_spec i (length ks - 2)) as [[_ ->]|[Q1 ->]]; [lra|]. destruct (Nat.eq_dec i (length ks - 2)) as [->|]; [lra|]. left. apply increasing_lt; auto. lia.
  - intros P. replace (Nat.min i (length ks - 2)) with i by lia. apply increasing_lt; auto. lia.
Qed.
End Piecewise.
