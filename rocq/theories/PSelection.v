(** Proofs about preprocess/selection.py. *)
From Coq Require Import Lia Lra.
From Verif Require Import PConstruct PUtils NumFacts ArrFacts.
From Verif Require Export SpecSelection.
Open Scope R_scope.
Open Scope string_scope.
Open Scope list_scope.

(** the words of the specification, as the model writes them *)
Ltac as_model := change asked with requested in *; change asks_spins with wants_spins in *.

(** ** Comparisons *)
Lemma nle_trans a b c : nle a b = true -> nle b c = true -> nle a c = true.
Proof.
  destruct a, b, c; cbn; try easy. unfold Rleb. repeat destruct (Rle_dec _ _); try easy. intros. lra.
Qed.
Lemma nle_nlt_trans a b c : nle a b = true -> nlt b c = true -> nlt a c = true.
Proof.
  destruct a, b, c; cbn; try easy. unfold Rleb, Rltb. destruct (Rle_dec _ _), (Rlt_dec r0 r1), (Rlt_dec r r1); try easy. intros. lra.
Qed.

(** ** Rows *)
Lemma seq_sorted a n : StronglySorted lt (seq a n).
Proof.
  revert a. induction n; intros a; cbn; constructor; auto. apply Forall_forall. intros x H. apply in_seq in H. lia.
Qed.
Lemma filter_sorted (p : nat -> bool) l : StronglySorted lt l -> StronglySorted lt (filter p l).
Proof.
  induction 1; cbn; [constructor|]. destruct (p a); auto. constructor; auto.
  apply Forall_forall. intros x Hx. apply filter_In in Hx. rewrite Forall_forall in H0. apply H0, Hx.
Qed.
Lemma selects_filter n (p : nat -> bool) P : (forall j, (j < n)%nat -> (p j = true <-> P j)) -> selects n P (filter p (seq 0 n)).
Proof.
  intros H. split; [apply filter_sorted, seq_sorted|]. intros j. rewrite filter_In, in_seq. split.
  - intros [A B]. split; [lia|]. apply H; auto; lia.
  - intros [A B]. split; [lia|]. apply H; auto.
Qed.

(** a boolean array, row by row *)
Definition rows (n : nat) (p : nat -> bool) : list bool := map p (seq 0 n).
Lemma rows_length n p : length (rows n p) = n. Proof. unfold rows. now rewrite map_length, seq_length. Qed.
Lemma col_rows (q : num -> bool) col n : length col = n -> map q col = rows n (fun j => q (nth j col NaN)).
Proof. intros <-. apply map_nth_seq. Qed.
Lemma map2_rows f n p q : map2 f (rows n p) (rows n q) = rows n (fun j => f (p j) (q j)).
Proof. apply map2_map_same. Qed.
Lemma lor_rows n p q : lor (rows n p) (rows n q) = Ok (rows n (fun j => (p j || q j)%bool)).
Proof. unfold lor, zip_bool. rewrite !rows_length, Nat.eqb_refl. now rewrite map2_rows. Qed.
Lemma land_rows n p q : land (rows n p) (rows n q) = Ok (rows n (fun j => (p j && q j)%bool)).
Proof. unfold land, zip_bool. rewrite !rows_length, Nat.eqb_refl. now rewrite map2_rows. Qed.
Lemma mask_rows (p : nat -> bool) (col : list num) : forall a, mask (map p (seq a (length col))) col =
  map (fun j => nth (j - a) col NaN) (filter p (seq a (length col))).
Proof.
  induction col as [|x r IH]; intros a; cbn [length seq map mask filter]; auto.
  rewrite (IH (S a)). destruct (p a); cbn [map].
  - rewrite Nat.sub_diag. cbn [nth]. f_equal. apply map_ext_in. intros j Hj. apply filter_In in Hj as [Hj _]. apply in_seq in Hj.
    replace (j - a)%nat with (S (j - S a)) by lia. reflexivity.
  - apply map_ext_in. intros j Hj. apply filter_In in Hj as [Hj _]. apply in_seq in Hj.
    replace (j - a)%nat with (S (j - S a)) by lia. reflexivity.
Qed.
Lemma pick_rows n p col : length col = n -> pick (rows n p) col = Ok (map (fun j => nth j col NaN) (filter p (seq 0 n))).
Proof.
  intros <-. unfold pick. rewrite rows_length, Nat.eqb_refl. f_equal. unfold rows. rewrite mask_rows.
  apply map_ext. intros j. now rewrite Nat.sub_0_r.
Qed.
Lemma n_true_rows n p : n_true (rows n p) = length (filter p (seq 0 n)).
Proof.
  unfold n_true, rows. induction (seq 0 n) as [|x r IH]; cbn; auto. destruct (p x); cbn; auto.
Qed.

(** ** Tables *)
Lemma table_col n t k : is_table n t -> In k (keys t) -> exists c, assoc k t = Ok c /\ length c = n.
Proof.
  intros [Hd Hl] Hk. apply assoc_keys in Hk as [c Hc]. exists c. split; auto.
  apply assoc_in in Hc. rewrite Forall_forall in Hl. apply (Hl _ Hc).
Qed.
Lemma cell_col t k c j : assoc k t = Ok c -> cell t k j = nth j c NaN.
Proof. unfold cell. now intros ->. Qed.
Lemma field_ok n t k p : is_table n t -> In k (keys t) ->
  (do c <- field t k; pick (rows n p) c) = Ok (map (cell t k) (filter p (seq 0 n))) /\ exists c, field t k = Ok c /\ pick (rows n p) c = Ok (map (cell t k) (filter p (seq 0 n))).
Proof.
  intros Ht Hk. destruct (table_col _ _ _ Ht Hk) as (c & Hc & Hl). unfold field. rewrite Hc. cbn [rbind].
  assert (E : pick (rows n p) c = Ok (map (cell t k) (filter p (seq 0 n)))).
  { rewrite pick_rows by auto. f_equal. apply map_ext. intros j. now rewrite (cell_col _ _ _ _ Hc). }
  split; auto. exists c. auto.
Qed.
Lemma col_ok n f k p : is_table n (o3_cols f) -> In k (keys (o3_cols f)) ->
  col_found f (rows n p) k = Ok (map (cell (o3_cols f) k) (filter p (seq 0 n))).
Proof.
  intros Ht Hk. destruct (table_col _ _ _ Ht Hk) as (c & Hc & Hl). unfold col_found. rewrite Hc. cbn [rbind].
  rewrite pick_rows by auto. f_equal. apply map_ext. intros j. now rewrite (cell_col _ _ _ _ Hc).
Qed.

(** ** O4a *)
Lemma far_cuts_ok n ifar t : is_table n t -> neqb ifar (Fin 0) = false -> forall t' p, incl t' t ->
  exists q, far_cuts ifar t' (rows n p) = Ok (rows n q) /\
    forall j, (j < n)%nat -> (q j = true <-> p j = true \/ exists k, In k (keys t') /\ contains "far" k = true /\ nle (cell t k j) (ndiv (Fin 1) ifar) = true).
Proof.
  intros [Hd Hl] Hi. induction t' as [|[k c] r IH]; intros p Hincl; cbn [far_cuts].
  - exists p. split; auto. intros j _. split; auto. intros [H|(k & [] & _)]; auto.
  - assert (Hk : assoc k t = Ok c) by (apply in_assoc; auto; apply Hincl; now left).
    assert (Hc : length c = n) by (rewrite Forall_forall in Hl; apply (Hl (k, c)), Hincl; now left).
    assert (Hr : incl r t) by (intros x Hx; apply Hincl; now right).
    destruct (contains "far" k) eqn:Ek.
    + rewrite Hi. rewrite (col_rows _ _ _ Hc), lor_rows. cbn [rbind].
      destruct (IH (fun j => (p j || nle (nth j c NaN) (ndiv (Fin 1) ifar))%bool) Hr) as (q & Hq & Hs).
      exists q. split; auto. intros j Hj. rewrite (Hs j Hj), orb_true_iff. split.
      * intros [[H|H]|(k' & A & B & D)]; auto; right.
        -- exists k. repeat split; auto. now left. now rewrite (cell_col _ _ _ _ Hk).
        -- exists k'. repeat split; auto. now right.
      * intros [H|(k' & [<-|A] & B & D)]; auto.
        -- left. right. now rewrite <- (cell_col _ _ _ _ Hk).
        -- right. exists k'. auto.
    + destruct (IH p Hr) as (q & Hq & Hs). exists q. split; auto. intros j Hj. rewrite (Hs j Hj). split.
      * intros [H|(k' & A & B & D)]; auto. right. exists k'. repeat split; auto. now right.
      * intros [H|(k' & [<-|A] & B & D)]; auto. cbn in B. congruence. right. exists k'; auto.
Qed.
Lemma o4a_found_ok n f ifar snr : good_o4a n f -> neqb ifar (Fin 0) = false ->
  exists p, o4a_found (o4a_events f) ifar snr = Ok (rows n p) /\ forall j, (j < n)%nat -> (p j = true <-> found_o4a (o4a_events f) ifar snr j).
Proof.
  intros [Ht Hi] Hz. unfold o4a_found.
  assert (Hk : In SNR_FIELD (keys (o4a_events f))) by (apply Hi; now left).
  destruct (table_col _ _ _ Ht Hk) as (c & Hc & Hl). unfold field. rewrite Hc. cbn [rbind].
  rewrite (col_rows _ _ _ Hl).
  destruct (far_cuts_ok n ifar _ Ht Hz (o4a_events f) (fun j => nge (nth j c NaN) snr) (incl_refl _)) as (q & Hq & Hs).
  exists q. split; auto. intros j Hj. rewrite (Hs j Hj). unfold found_o4a. now rewrite (cell_col _ _ _ _ Hc).
Qed.

Lemma combine_map_same' {A B X} (f : X -> A) (g : X -> B) l : combine (map f l) (map g l) = map (fun x => (f x, g x)) l.
Proof. induction l; cbn; congruence. Qed.
Lemma npowi2 x : npowi x 2 = nmul x x.
Proof. cbn. destruct x; cbn; auto; try (f_equal; ring); unfold sinf, Rltb; repeat destruct (Rlt_dec _ _); auto; try lra. Qed.
Lemma spin_mag_spec x y z : spin_mag x y z = magnitude x y z.
Proof. unfold spin_mag, magnitude. now rewrite !npowi2. Qed.
Lemma jac_spec a1 a2 : spin_jacobian a1 a2 = polar_jacobian a1 a2.
Proof. unfold spin_jacobian, polar_jacobian. now rewrite !npowi2. Qed.
Lemma time_ok attrs : has_time attrs -> exists t, analysis_time attrs = Ok t.
Proof.
  intros (k & Hk & Ha). apply assoc_keys in Ha as [v Hv]. unfold analysis_time. cbn [fold_left].
  destruct Hk as [<-|[<-|[<-|[]]]]; rewrite Hv; repeat (destruct (assoc _ attrs)); eexists; reflexivity.
Qed.
Lemma combine3 (x y z : nat -> num) sel : spin_mags (map x sel) (map y sel) (map z sel) = map (fun j => magnitude (x j) (y j) (z j)) sel.
Proof.
  unfold spin_mags. rewrite combine_map_same', map2_map_same. apply map_ext. intros. apply spin_mag_spec.
Qed.
Ltac field_step :=
  match goal with
  | Ht : is_table ?n ?t, Hi : incl _ (keys ?t) |- context [rbind (field ?t ?k) (fun c => rbind (pick (rows ?n ?p) c) _)] =>
      let c := fresh "c" in let E1 := fresh in let E2 := fresh in
      destruct (proj2 (field_ok n t k p Ht ltac:(apply Hi; cbn; tauto))) as (c & E1 & E2); rewrite E1; cbn [rbind]; rewrite E2; cbn [rbind]; clear c E1 E2
  end.
Lemma o4a_spin_ok n t p ii : is_table n t -> incl spin_fields (keys t) -> In ii ["1"; "2"] ->
  o4a_spin t (rows n p) ii = Ok (map (mag t ii) (filter p (seq 0 n)), map (fun j => ndiv (cell t ("spin" ++ ii ++ "z")%string j) (mag t ii j)) (filter p (seq 0 n))).
Proof.
  intros Ht Hi Hii. unfold o4a_spin.
  assert (H : forall s, In s ["x"; "y"; "z"] -> In ("spin" ++ ii ++ s)%string (keys t)).
  { intros s Hs. apply Hi. destruct Hii as [<-|[<-|[]]], Hs as [<-|[<-|[<-|[]]]]; cbn; tauto. }
  destruct (proj2 (field_ok n t _ p Ht (H "x" ltac:(cbn; tauto)))) as (cx & E1 & E2). rewrite E1. cbn [rbind]. rewrite E2. cbn [rbind].
  destruct (proj2 (field_ok n t _ p Ht (H "y" ltac:(cbn; tauto)))) as (cy & E3 & E4). rewrite E3. cbn [rbind]. rewrite E4. cbn [rbind].
  destruct (proj2 (field_ok n t _ p Ht (H "z" ltac:(cbn; tauto)))) as (cc & E5 & E6). rewrite E5. cbn [rbind]. rewrite E6. cbn [rbind].
  rewrite combine3. rewrite map2_map_same. reflexivity.
Qed.
Theorem o4a_reads n f names ifar snr total : good_o4a n f -> neqb ifar (Fin 0) = false ->
  assoc "total_generated" (o4a_attrs f) = Ok total -> has_time (o4a_attrs f) ->
  exists sel a, get_o4a_cumulative_injection_dict f names ifar snr = Ok a /\
    selects n (found_o4a (o4a_events f) ifar snr) sel /\ ij_total a = total /\
    injection_columns (o4a_events f) names
      (requested_prior (o4a_events f) names (fun j => ndiv (nexp (cell (o4a_events f) LNP_FIELD j)) (cell (o4a_events f) "weights" j))) sel (ij_params a).
Proof.
  intros Hg Hz Htot Htime. destruct (o4a_found_ok n f ifar snr Hg Hz) as (p & Hp & Hs). destruct (time_ok _ Htime) as [tm Htm].
  destruct Hg as [Ht Hi]. exists (filter p (seq 0 n)).
  unfold get_o4a_cumulative_injection_dict. rewrite Htot, Htm. cbn [rbind]. cbv zeta. rewrite Hp. cbn [rbind].
  do 5 field_step.
  assert (Hsp : incl spin_fields (keys (o4a_events f))) by (intros x Hx; apply Hi; do 6 right; exact Hx).
  rewrite !map2_map_same. unfold requested_prior, injection_columns, times; as_model.
  destruct (wants_spins names) eqn:Ew.
  - rewrite (o4a_spin_ok n _ p "1" Ht Hsp) by (cbn; tauto). cbn [rbind]. rewrite (o4a_spin_ok n _ p "2" Ht Hsp) by (cbn; tauto). cbn [rbind].
    eexists. split; [reflexivity|]. split; [apply selects_filter; exact Hs|]. split; [reflexivity|]. cbn [ij_params].
    repeat (split; [reflexivity|]). split; [|split; [reflexivity|]].
    + cbn [app assoc String.eqb Ascii.eqb Bool.eqb]. f_equal. destruct (requested "mass_ratio" names); rewrite ?map2_map_same; apply map_ext; intros j; rewrite jac_spec.
      * rewrite <- !nmul_assoc. f_equal. apply nmul_comm.
      * reflexivity.
    + intros ii [<-|[<-|[]]]; split; reflexivity.
  - cbn [rbind]. eexists. split; [reflexivity|]. split; [apply selects_filter; exact Hs|]. split; [reflexivity|]. cbn [ij_params].
    repeat (split; [reflexivity|]). split; [|reflexivity]. cbn [app assoc String.eqb Ascii.eqb Bool.eqb]. f_equal. destruct (requested "mass_ratio" names); rewrite ?map2_map_same; reflexivity.
Qed.

(** ** O3 *)
Lemma names_rows (q : string -> bool) l n : length l = n -> map q l = rows n (fun j => q (nth j l "")).
Proof. intros <-. apply map_nth_seq. Qed.
Definition gw1 (f : o3_file) (snr : num) (j : nat) : Prop :=
  exists names, o3_names f = Some names /\ In (nth j names "") ["o1"; "o2"] /\ nlt snr (cell (o3_cols f) "optimal_snr_net" j) = true.
Lemma gwtc1_ok n f snr p : good_o3 n f -> exists q, gwtc1_cut f snr (rows n p) = Ok (rows n q) /\
  forall j, (j < n)%nat -> (q j = true <-> p j = true \/ gw1 f snr j).
Proof.
  intros (Ht & _ & Hn). unfold gwtc1_cut, gw1. destruct (o3_names f) as [names|].
  - destruct Hn as [Hl Hs]. destruct (table_col _ _ _ Ht Hs) as (c & Hc & Hcl). rewrite Hc. cbn [rbind].
    rewrite (names_rows _ _ _ Hl), (col_rows _ _ _ Hcl), land_rows. cbn [rbind]. rewrite lor_rows. eexists. split; [reflexivity|].
    intros j Hj. cbn beta. rewrite orb_true_iff, andb_true_iff, orb_true_iff, !String.eqb_eq. split.
    + intros [H|[H1 H2]]; auto. right. exists names. repeat split; [cbn; destruct H1 as [->| ->]; auto|]. now rewrite (cell_col _ _ _ _ Hc).
    + intros [H|(nm & [= <-] & H1 & H2)]; auto. right. rewrite <- (cell_col _ _ _ _ Hc). split; auto. destruct H1 as [<-|[<-|[]]]; auto.
  - exists p. split; auto. intros j _. split; auto. intros [H|(nm & H & _)]; [auto|discriminate].
Qed.
Lemma o3_cuts_ok n f ifar snr : good_o3 n f -> forall ks p, incl ks (group_keys f) ->
  exists q, o3_cuts f ifar snr ks (rows n p) = Ok (rows n q) /\
    forall j, (j < n)%nat -> (q j = true <-> p j = true \/ (exists k, In k ks /\ contains "ifar" (lower k) = true /\ nlt ifar (cell (o3_cols f) k j) = true) \/ (ks <> [] /\ gw1 f snr j)).
Proof.
  intros Hg. induction ks as [|k r IH]; intros p Hi; cbn [o3_cuts].
  - exists p. split; auto. intros j _. split; auto. intros [H|[(k & [] & _)|[H _]]]; auto; now destruct H.
  - assert (Hr : incl r (group_keys f)) by (intros x Hx; apply Hi; now right).
    assert (Hk : In k (group_keys f)) by (apply Hi; now left).
    assert (S1 : exists p1, (if contains "ifar" (lower k) then do c <- assoc k (o3_cols f); lor (rows n p) (map (fun x => ngt x ifar) c) else Ok (rows n p)) = Ok (rows n p1)
       /\ forall j, p1 j = true <-> p j = true \/ (contains "ifar" (lower k) = true /\ nlt ifar (cell (o3_cols f) k j) = true)).
    { destruct (contains "ifar" (lower k)) eqn:E.
      - unfold group_keys in Hk. apply in_app_iff in Hk as [Hk|Hk].
        + destruct (table_col _ _ _ (proj1 Hg) Hk) as (c & Hc & Hl). rewrite Hc. cbn [rbind]. rewrite (col_rows _ _ _ Hl), lor_rows.
          eexists. split; [reflexivity|]. intros j. cbn beta. rewrite orb_true_iff, (cell_col _ _ _ _ Hc). tauto.
        + destruct (o3_names f); [|easy]. destruct Hk as [<-|[]]. discriminate E.
      - exists p. split; auto. intros j. split; auto. intros [H|[H _]]; auto; discriminate. }
    destruct S1 as (p1 & E1 & S1). rewrite E1. cbn [rbind].
    destruct (gwtc1_ok n f snr p1 Hg) as (p2 & E2 & S2). rewrite E2. cbn [rbind].
    destruct (IH p2 Hr) as (q & Eq & Sq). exists q. split; auto. intros j Hj. rewrite (Sq j Hj), (S2 j Hj), (S1 j). split.
    + intros [[[H|[A B]]|H]|[(k' & A & B & D)|[_ H]]]; auto.
      * right. left. exists k. repeat split; auto. now left.
      * right. right. split; [discriminate|auto].
      * right. left. exists k'. repeat split; auto. now right.
      * right. right. split; [discriminate|auto].
    + intros [H|[(k' & [<-|A] & B & D)|[_ H]]]; auto.
      right. left. exists k'. auto.
Qed.
Lemma extra_ok n f : is_table n (o3_cols f) -> forall cs p, incl (keys cs) (keys (o3_cols f)) ->
  exists q, extra_cuts f cs (rows n p) = Ok (rows n q) /\
    forall j, (j < n)%nat -> (q j = true <-> p j = true \/ exists k v, In (k, v) cs /\ nle v (cell (o3_cols f) k j) = true).
Proof.
  intros Ht. induction cs as [|[k v] r IH]; intros p Hi; cbn [extra_cuts].
  - exists p. split; auto. intros j _. split; auto. intros [H|(k & v & [] & _)]; auto.
  - assert (Hk : In k (keys (o3_cols f))) by (apply Hi; now left).
    destruct (table_col _ _ _ Ht Hk) as (c & Hc & Hl). rewrite Hc. cbn [rbind]. rewrite (col_rows _ _ _ Hl), lor_rows. cbn [rbind].
    destruct (IH (fun j => (p j || nge (nth j c NaN) v)%bool)) as (q & Eq & Sq). { intros x Hx. apply Hi. now right. }
    exists q. split; auto. intros j Hj. rewrite (Sq j Hj), orb_true_iff. split.
    + intros [[H|H]|(k' & v' & A & B)]; auto; right.
      * exists k, v. split; [now left|]. now rewrite (cell_col _ _ _ _ Hc).
      * exists k', v'. split; [now right|auto].
    + intros [H|(k' & v' & [[= <- <-]|A] & B)]; auto.
      * left. right. rewrite (cell_col _ _ _ _ Hc) in B. exact B.
      * right. exists k', v'. auto.
Qed.
Lemma false_rows (l : list num) n : length l = n -> map (fun _ => false) l = rows n (fun _ => false).
Proof. intros H. exact (col_rows (fun _ => false) l n H). Qed.
Lemma o3_found_ok n f ifar snr cuts : good_o3 n f -> good_cuts f cuts ->
  exists p, o3_found f ifar snr cuts = Ok (rows n p) /\ forall j, (j < n)%nat -> (p j = true <-> found_o3 f ifar snr j \/ passes_cut f cuts j).
Proof.
  intros Hg Hc. pose proof Hg as (Ht & Hi & Hn). unfold o3_found.
  assert (Hk : In "mass1_source" (keys (o3_cols f))) by (apply Hi; cbn; tauto).
  destruct (table_col _ _ _ Ht Hk) as (c & Hcc & Hl). rewrite Hcc. cbn [rbind]. rewrite (false_rows _ _ Hl).
  destruct (o3_cuts_ok n f ifar snr Hg (group_keys f) (fun _ => false) (incl_refl _)) as (q & Eq & Sq). rewrite Eq. cbn [rbind].
  assert (Sq' : forall j, (j < n)%nat -> (q j = true <-> found_o3 f ifar snr j)).
  { intros j Hj. rewrite (Sq j Hj). unfold found_o3. fold (gw1 f snr j). split.
    - intros [H|[(k & A & B & D)|[_ H]]]; auto; [discriminate|]. unfold group_keys in A. apply in_app_iff in A as [A|A].
      + left. exists k. auto.
      + destruct (o3_names f); [|easy]. destruct A as [<-|[]]. discriminate.
    - intros [(k & A & B & D)|H].
      + right. left. exists k. repeat split; auto. unfold group_keys. apply in_app_iff. auto.
      + right. right. split; auto. unfold group_keys. destruct (keys (o3_cols f)); [easy|discriminate]. }
  destruct cuts as [cs|]; cbn [passes_cut].
  - destruct (extra_ok n f Ht cs q Hc) as (q' & Eq' & Sq2). exists q'. split; auto. intros j Hj. rewrite (Sq2 j Hj), (Sq' j Hj). tauto.
  - exists q. split; auto. intros j Hj. rewrite (Sq' j Hj). tauto.
Qed.
Lemma goz_ok n f p k : is_table n (o3_cols f) -> In k (keys (o3_cols f)) ->
  get_or_zeros f (rows n p) k = Ok (map (cell (o3_cols f) k) (filter p (seq 0 n))).
Proof.
  intros Ht Hk. destruct (table_col _ _ _ Ht Hk) as (c & Hc & Hl). unfold get_or_zeros. rewrite Hc.
  rewrite pick_rows by auto. f_equal. apply map_ext. intros j. now rewrite (cell_col _ _ _ _ Hc).
Qed.
Lemma o3_spin_ok n f p ii : is_table n (o3_cols f) -> incl spin_fields (keys (o3_cols f)) -> In ii ["1"; "2"] ->
  o3_spin f (rows n p) ii = Ok (map (mag (o3_cols f) ii) (filter p (seq 0 n)),
    map (fun j => ndiv (cell (o3_cols f) ("spin" ++ ii ++ "z")%string j) (mag (o3_cols f) ii j)) (filter p (seq 0 n))).
Proof.
  intros Ht Hi Hii. unfold o3_spin.
  assert (H : forall s, In s ["x"; "y"; "z"] -> In ("spin" ++ ii ++ s)%string (keys (o3_cols f))).
  { intros s Hs. apply Hi. destruct Hii as [<-|[<-|[]]], Hs as [<-|[<-|[<-|[]]]]; cbn; tauto. }
  rewrite (goz_ok n f p _ Ht (H "x" ltac:(cbn; tauto))). cbn [rbind].
  rewrite (goz_ok n f p _ Ht (H "y" ltac:(cbn; tauto))). cbn [rbind].
  rewrite (col_ok n f _ p Ht (H "z" ltac:(cbn; tauto))). cbn [rbind].
  rewrite combine3, map2_map_same. reflexivity.
Qed.
Theorem o3_reads n f names ifar snr cuts total : good_o3 n f -> good_cuts f cuts ->
  (wants_spins names = true -> incl spin_fields (keys (o3_cols f))) ->
  assoc "total_generated" (o3_group_attrs f) = Ok total -> has_time (o3_attrs f) ->
  exists sel a, get_o3_cumulative_injection_dict f names ifar snr cuts = Ok a /\
    selects n (fun j => found_o3 f ifar snr j \/ passes_cut f cuts j) sel /\ ij_total a = total /\
    injection_columns (o3_cols f) names (requested_prior (o3_cols f) names (cell (o3_cols f) "sampling_pdf")) sel (ij_params a).
Proof.
  intros Hg Hc Hsp Htot Htime. destruct (o3_found_ok n f ifar snr cuts Hg Hc) as (p & Hp & Hs). destruct (time_ok _ Htime) as [tm Htm].
  destruct Hg as (Ht & Hi & _). exists (filter p (seq 0 n)).
  unfold get_o3_cumulative_injection_dict. rewrite Hp. cbn [rbind].
  rewrite !(fun k H => col_ok n f k p Ht (Hi k H)) by (cbn; tauto). cbn [rbind]. rewrite Htot, Htm. cbn [rbind]. cbv zeta.
  rewrite !map2_map_same. unfold requested_prior, injection_columns, times; as_model.
  destruct (wants_spins names) eqn:Ew.
  - rewrite (o3_spin_ok n f p "1" Ht (Hsp eq_refl)) by (cbn; tauto). cbn [rbind]. rewrite (o3_spin_ok n f p "2" Ht (Hsp eq_refl)) by (cbn; tauto). cbn [rbind].
    eexists. split; [reflexivity|]. split; [apply selects_filter; exact Hs|]. split; [reflexivity|]. cbn [ij_params].
    repeat (split; [reflexivity|]). split; [|split; [reflexivity|]].
    + cbn [app assoc String.eqb Ascii.eqb Bool.eqb]. f_equal. destruct (requested "mass_ratio" names); rewrite ?map2_map_same; apply map_ext; intros j; rewrite jac_spec; reflexivity.
    + intros ii [<-|[<-|[]]]; split; reflexivity.
  - cbn [rbind]. eexists. split; [reflexivity|]. split; [apply selects_filter; exact Hs|]. split; [reflexivity|]. cbn [ij_params].
    repeat (split; [reflexivity|]). split; [|reflexivity]. cbn [app assoc String.eqb Ascii.eqb Bool.eqb]. f_equal. destruct (requested "mass_ratio" names); rewrite ?map2_map_same; reflexivity.
Qed.

(** ** Monotone thresholds *)
Lemma selects_incl n (P Q : nat -> Prop) s s' : (forall j, P j -> Q j) -> selects n P s -> selects n Q s' -> incl s s'.
Proof. intros H [_ A] [_ B] j Hj. apply A in Hj as [Hj HP]. apply B. auto. Qed.
Lemma inv_anti a b : 0 < a -> a <= b -> nle (ndiv (Fin 1) (Fin b)) (ndiv (Fin 1) (Fin a)) = true.
Proof.
  intros Ha Hb. cbn. unfold Reqb. destruct (Req_EM_T b 0), (Req_EM_T a 0); try lra. cbn. unfold Rleb. destruct (Rle_dec _ _); auto.
  exfalso. apply n1. unfold Rdiv. rewrite !Rmult_1_l. apply Rinv_le_contravar; auto.
Qed.
Lemma o4a_monotone t ifar ifar' snr snr' j : 0 < ifar' -> ifar' <= ifar -> nle snr' snr = true ->
  found_o4a t (Fin ifar) snr j -> found_o4a t (Fin ifar') snr' j.
Proof.
  intros Hp Hi Hs [H|(k & A & B & D)]; [left; eapply nle_trans; eauto|right]. exists k. repeat split; auto. eapply nle_trans; [exact D|]. now apply inv_anti.
Qed.
Lemma o3_monotone f ifar ifar' snr snr' j : nle ifar' ifar = true -> nle snr' snr = true -> found_o3 f ifar snr j -> found_o3 f ifar' snr' j.
Proof.
  intros Hi Hs [(k & A & B & D)|(nm & A & B & D)]; [left; exists k|right; exists nm]; repeat split; auto; eapply nle_nlt_trans; eauto.
Qed.

(** ** Missing in-plane components *)
Lemma goz_missing n f p k : ~ In k (keys (o3_cols f)) -> get_or_zeros f (rows n p) k =
  if Nat.eqb n (length (filter p (seq 0 n))) then Ok (map (fun _ => Fin 0) (filter p (seq 0 n))) else Err IndexError.
Proof.
  intros Hk. unfold get_or_zeros. destruct (assoc k (o3_cols f)) eqn:E.
  { exfalso. apply Hk, assoc_keys. eauto. }
  rewrite n_true_rows. destruct (Nat.eqb n _) eqn:En.
  - apply Nat.eqb_eq in En. rewrite pick_rows by now rewrite repeat_length.
    f_equal. apply map_ext_in. intros j Hj. apply filter_In in Hj as [Hj _]. apply in_seq in Hj. rewrite <- En. 
    rewrite nth_indep with (d' := Fin 0) by (rewrite repeat_length; lia). apply nth_repeat.
  - unfold pick. rewrite rows_length, repeat_length, En. reflexivity.
Qed.
Lemma all_selected n P sel : selects n P sel -> length sel = n -> forall j, (j < n)%nat -> P j.
Proof.
  intros [Hs Hi] Hl j Hj. apply Hi. 
  assert (Hnd : NoDup sel). { clear -Hs. induction Hs; constructor; auto. intros Hin. rewrite Forall_forall in H. specialize (H _ Hin). lia. }
  assert (incl (seq 0 n) sel); [|apply H, in_seq; lia].
  apply NoDup_length_incl; auto. rewrite seq_length. lia. intros x Hx. apply in_seq. apply Hi in Hx. lia.
Qed.
Theorem o3_missing_component n f names ifar snr cuts total j0 k : good_o3 n f -> good_cuts f cuts -> wants_spins names = true ->
  In k ["spin1x"; "spin1y"; "spin2x"; "spin2y"] -> ~ In k (keys (o3_cols f)) ->
  assoc "total_generated" (o3_group_attrs f) = Ok total -> has_time (o3_attrs f) ->
  (j0 < n)%nat -> ~ (found_o3 f ifar snr j0 \/ passes_cut f cuts j0) ->
  get_o3_cumulative_injection_dict f names ifar snr cuts = Err IndexError.
Proof.
  intros Hg Hc Hw Hk Hm Htot Htime Hj0 Hn0. destruct (o3_found_ok n f ifar snr cuts Hg Hc) as (p & Hp & Hs). destruct (time_ok _ Htime) as [tm Htm].
  destruct Hg as (Ht & Hi & _).
  unfold get_o3_cumulative_injection_dict. rewrite Hp. cbn [rbind].
  rewrite !(fun k H => col_ok n f k p Ht (Hi k H)) by (cbn; tauto). cbn [rbind]. rewrite Htot, Htm. cbn [rbind]. cbv zeta. rewrite Hw.
  assert (Hne : Nat.eqb n (length (filter p (seq 0 n))) = false).
  { apply Nat.eqb_neq. intros E. apply Hn0. 
    apply (all_selected n (fun j => found_o3 f ifar snr j \/ passes_cut f cuts j) (filter p (seq 0 n))); auto. now apply selects_filter. }
  assert (G : forall k, get_or_zeros f (rows n p) k = Ok (map (cell (o3_cols f) k) (filter p (seq 0 n))) \/ get_or_zeros f (rows n p) k = Err IndexError).
  { intros k'. destruct (in_dec string_dec k' (keys (o3_cols f))).
    - left. now apply goz_ok.
    - right. rewrite goz_missing by auto. now rewrite Hne. }
  assert (Gk : get_or_zeros f (rows n p) k = Err IndexError) by (rewrite goz_missing by auto; now rewrite Hne).
  assert (Z : forall ii, In ii ["1"; "2"] -> exists l, col_found f (rows n p) ("spin" ++ ii ++ "z")%string = Ok l).
  { intros ii Hii. eexists. apply col_ok; auto. apply Hi. destruct Hii as [<-|[<-|[]]]; cbn; tauto. }
  destruct (Z "1" ltac:(cbn; tauto)) as [z1 Hz1], (Z "2" ltac:(cbn; tauto)) as [z2 Hz2].
  unfold o3_spin. cbn [append] in *. 
  destruct (G "spin1x") as [E|E]; rewrite E; cbn [rbind]; [|reflexivity].
  destruct (G "spin1y") as [E'|E']; rewrite E'; cbn [rbind]; [|reflexivity].
  rewrite Hz1. cbn [rbind].
  destruct (G "spin2x") as [E2|E2]; rewrite E2; cbn [rbind]; [|reflexivity].
  destruct (G "spin2y") as [E2'|E2']; rewrite E2'; cbn [rbind]; [|reflexivity].
  destruct Hk as [<-|[<-|[<-|[<-|[]]]]]; congruence.
Qed.
Lemma mag_aligned z : z <> NaN -> magnitude (Fin 0) (Fin 0) z = nabs z.
Proof.
  unfold magnitude. destruct z; cbn; try easy; intros _.
  replace (0 * 0 + 0 * 0 + r * r)%R with (Rsqr r) by (unfold Rsqr; ring). unfold Rltb. destruct (Rlt_dec _ _) as [l|_].
  - pose proof (Rle_0_sqr r). lra.
  - now rewrite sqrt_Rsqr_abs.
Qed.
Theorem o3_missing_all_found n f names ifar snr cuts total : good_o3 n f -> good_cuts f cuts -> wants_spins names = true ->
  (forall k, In k ["spin1x"; "spin1y"; "spin2x"; "spin2y"] -> ~ In k (keys (o3_cols f))) ->
  assoc "total_generated" (o3_group_attrs f) = Ok total -> has_time (o3_attrs f) ->
  (forall j, (j < n)%nat -> found_o3 f ifar snr j \/ passes_cut f cuts j) ->
  (forall j, (j < n)%nat -> cell (o3_cols f) "spin1z" j <> NaN /\ cell (o3_cols f) "spin2z" j <> NaN) ->
  exists a, get_o3_cumulative_injection_dict f names ifar snr cuts = Ok a /\
    assoc "a_1" (ij_params a) = Ok (map (fun j => nabs (cell (o3_cols f) "spin1z" j)) (seq 0 n)) /\
    assoc "a_2" (ij_params a) = Ok (map (fun j => nabs (cell (o3_cols f) "spin2z" j)) (seq 0 n)).
Proof.
  intros Hg Hc Hw Hm Htot Htime Hall Hnan. destruct (o3_found_ok n f ifar snr cuts Hg Hc) as (p & Hp & Hs). destruct (time_ok _ Htime) as [tm Htm].
  destruct Hg as (Ht & Hi & _).
  assert (Ef : filter p (seq 0 n) = seq 0 n).
  { apply filter_all. intros j Hj. apply in_seq in Hj. apply Hs; [lia|]. apply Hall. lia. }
  unfold get_o3_cumulative_injection_dict. rewrite Hp. cbn [rbind].
  rewrite !(fun k H => col_ok n f k p Ht (Hi k H)) by (cbn; tauto). cbn [rbind]. rewrite Htot, Htm. cbn [rbind]. cbv zeta. rewrite Hw.
  assert (G : forall k, In k ["spin1x"; "spin1y"; "spin2x"; "spin2y"] -> get_or_zeros f (rows n p) k = Ok (map (fun _ => Fin 0) (seq 0 n))).
  { intros k Hk. rewrite goz_missing by auto. now rewrite Ef, seq_length, Nat.eqb_refl. }
  unfold o3_spin. cbn [append].
  rewrite !(fun k H => G k H) by (cbn; tauto). cbn [rbind].
  rewrite !(fun k H => col_ok n f k p Ht (Hi k H)) by (cbn; tauto). cbn [rbind]. rewrite Ef, !combine3.
  eexists. split; [reflexivity|]. cbn [ij_params app assoc String.eqb Ascii.eqb Bool.eqb]. split; f_equal; apply map_ext_in; intros j Hj; apply in_seq in Hj; apply mag_aligned; apply Hnan; lia.
Qed.
