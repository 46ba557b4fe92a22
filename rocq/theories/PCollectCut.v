(** Proofs about the mass cut of preprocess/data_collection.py. *)
From Coq Require Import Lia Lra.
From Verif Require Import PConstruct PUtils NumFacts ArrFacts PSelection.
From Verif Require Export PCollect.
Open Scope R_scope.
Open Scope string_scope.
Open Scope list_scope.

Lemma nlt_antisym a b : nlt a b = true -> nlt b a = false.
Proof. destruct a, b; cbn; auto; try congruence. intros H. apply Rltb_true in H. apply Rltb_false. lra. Qed.
Lemma survives_below mmax e n j : ~ is_gwtc1 e -> (j < n)%nat -> survives mmax e n j -> nlt mmax (cell (ep_samples e) "mass_1_source" j) = false.
Proof. intros G Hj [H|[H|H]]; [now destruct G|now apply nlt_antisym|auto]. Qed.
Lemma Forall2_in_r {A B} (P : A -> B -> Prop) l m b : Forall2 P l m -> In b m -> exists a, In a l /\ P a b.
Proof. induction 1; intros []; [subst; eexists; split; [now left|eauto]|]. destruct (IHForall2 H1) as (a & A1 & A2). exists a. split; auto. now right. Qed.

(** no sample above mmax in the result *)
Theorem cut_above choice c mmax cat evs c' ev d : is_sampling choice -> good_catalog cat -> NoDup (keys cat) ->
  processed_catalog_dataset_from_dict choice c mmax cat = Ok (evs, c') -> In (ev, d) evs -> ed_catalog d <> "GWTC-1" ->
  forall m, In m (nth 0 (ed_rows d) []) -> nlt mmax m = false.
Proof.
  intros HC HG _ E H G m Hm. destruct (processed_ok _ _ _ _ _ _ HC HG E) as (_ & k & _ & F & _).
  destruct (Forall2_in_r _ _ _ _ F H) as ([ev' e] & _ & (H1 & H2 & H3 & n & z & all & js & A & B & C1 & _ & _ & _ & I & R)). cbn [fst snd] in *.
  rewrite R in Hm. cbn [nth map PARAMS] in Hm. apply in_map_iff in Hm as (j & <- & Hj).
  assert (G' : ~ is_gwtc1 e) by (unfold is_gwtc1; congruence).
  unfold sample_value. destruct (String.eqb_spec (ep_catalog e) "GWTC-1"); [now destruct G'|]. cbn [source_name String.eqb Ascii.eqb Bool.eqb].
  destruct C1 as [_ C1]. destruct (proj1 (C1 j) (I j Hj)) as [Hn Hs]. now apply (survives_below _ _ n).
Qed.
Lemma selects_unique n P l l' : selects n P l -> selects n P l' -> length l = length l'.
Proof.
  intros [S1 H1] [S2 H2]. apply Nat.le_antisymm; apply NoDup_incl_length; try (now apply sorted_nodup); intros j Hj.
  - apply H2, H1, Hj.
  - apply H1, H2, Hj.
Qed.
Lemma is_table_size n n' t k : is_table n t -> is_table n' t -> In k (keys t) -> n = n'.
Proof. intros H H' Hk. destruct (table_col _ _ _ H Hk) as (c & E & L). destruct (table_col _ _ _ H' Hk) as (c2 & E' & L'). congruence. Qed.
(** a catalog of one event with at most 10000 samples keeps every sample below mmax *)
Theorem cut_below choice c mmax ev e n evs c' j : is_sampling choice -> good_event n e -> ~ is_gwtc1 e -> (n <= MAX_SAMPLES)%nat ->
  processed_catalog_dataset_from_dict choice c mmax ((ev, e) :: nil) = Ok (evs, c') ->
  (j < n)%nat -> nlt (cell (ep_samples e) "mass_1_source" j) mmax = true ->
  exists d i, evs = (ev, d) :: nil /\ (i < n_samples d)%nat /\ map (fun row => nth i row NaN) (ed_rows d) = map (fun p => cell (ep_samples e) (column_of p) j) PARAMS.
Proof.
  intros HC Hn G Hm E Hj Hlt. destruct (processed_ok _ _ _ _ _ _ HC (is_table_one ev e n Hn) E) as (_ & k & Hk & F & K).
  inversion F as [|ke [ev' d] r r' (H1 & H2 & H3 & n' & z & all & js & A & B & C1 & L1 & L2 & ND & I & R) F' Ea Eb]. subst. inversion F'. subst. cbn [fst snd] in *. subst ev'.
  assert (Hc : In "mass_1_source" (keys (ep_samples e))) by (apply (proj2 (proj2 Hn) G); cbn; tauto).
  assert (n' = n) by (apply (is_table_size _ _ (ep_samples e) "mass_1_source"); auto; [apply A|apply Hn]). subst n'.
  assert (Lall : (length all <= n)%nat).
  { rewrite <- (seq_length n 0). apply NoDup_incl_length; [apply sorted_nodup, C1|]. intros x Hx. apply C1 in Hx. apply in_seq. lia. }
  assert (Ek : length js = length all).
  { destruct K as [K|(ke & n2 & all2 & [<-|[]] & A2 & C2 & L)]; [lia|]. cbn [snd] in *.
    assert (n2 = n) by (apply (is_table_size _ _ (ep_samples e) "mass_1_source"); auto; [apply A2|apply Hn]). subst n2.
    rewrite (selects_unique _ _ _ _ C1 C2). auto. }
  assert (In j js).
  { apply (NoDup_length_incl (l' := all) ND); auto; [lia|]. apply C1. split; auto. right. now left. }
  apply In_nth with (d := O) in H. destruct H as (i & Hi & Ei). exists d, i. split; auto.
  assert (NS : n_samples d = length js) by (unfold n_samples; rewrite R; cbn; now rewrite map_length).
  split; [lia|]. rewrite R, map_map. apply map_ext. intros p.
  rewrite (nth_indep _ NaN (sample_value e z p O)) by (rewrite map_length; auto). rewrite map_nth, Ei.
  unfold sample_value. destruct (String.eqb_spec (ep_catalog e) "GWTC-1"); [now destruct G|reflexivity].
Qed.

(** no rule on (mass_1, mmax) alone describes the cut *)
Definition flat_event (l : list R) : event_post := Post (map (fun p => (source_name p, map Fin l)) PARAMS) "euclidean" "GWTC-2".
Lemma flat_good l : good_event (length l) (flat_event l).
Proof.
  split; [split|split].
  - cbn. repeat constructor; cbn; intuition discriminate.
  - cbn. repeat constructor; apply map_length.
  - intros H. discriminate H.
  - intros _. cbn. apply incl_refl.
Qed.
Definition first_ones (ev : string) (n k : nat) : list nat := seq 0 k.
Lemma first_ones_ok : is_sampling first_ones.
Proof. intros ev n k H. unfold first_ones. rewrite seq_length. split; auto. split; [apply seq_NoDup|]. intros i Hi. apply in_seq in Hi. lia. Qed.
Lemma mask_length {A} (f : list bool) (x : list A) : length f = length x -> length (mask f x) = n_true f.
Proof. revert x. induction f as [|b r IH]; intros [|a x]; cbn; auto; try discriminate. intros H. destruct b; cbn; rewrite IH; auto. Qed.
Lemma mask_le {A} f : forall x : list A, (length (mask f x) <= length x)%nat.
Proof. induction f as [|b f IH]; intros [|x m]; cbn; auto; try lia. destruct b; cbn; specialize (IH m); lia. Qed.
Lemma mass_sel_length mmax m : length (mass_sel mmax m) = length m.
Proof. unfold mass_sel. destruct (existsb _ _); apply map_length. Qed.
Lemma flat_processed c mmax ev l : exists d, processed_catalog_dataset_from_dict first_ones c mmax ((ev, flat_event l) :: nil) = Ok ((ev, d) :: nil, c) /\
  n_samples d = Nat.min (n_true (mass_sel mmax (map Fin l))) MAX_SAMPLES.
Proof.
  assert (E : other_rows mmax (ep_samples (flat_event l)) = Ok (map (fun _ => mask (mass_sel mmax (map Fin l)) (map Fin l)) PARAMS)).
  { unfold other_rows, field. cbn [flat_event ep_samples map PARAMS assoc source_name String.eqb Ascii.eqb Bool.eqb rbind fields]. unfold field.
    cbn [assoc source_name String.eqb Ascii.eqb Bool.eqb rbind]. rewrite !pick_ok by apply mass_sel_length. reflexivity. }
  unfold processed_catalog_dataset_from_dict. cbn [cut_events]. change (String.eqb (ep_catalog (flat_event l)) "GWTC-1") with false. cbv iota.
  rewrite E. cbn [rbind]. unfold downsample. cbn [map]. eexists. split; [reflexivity|].
  unfold n_samples at 1. cbn [ed_rows map PARAMS]. unfold first_ones. rewrite map_length, seq_length. unfold common_size. cbn [fold_left snd]. unfold n_samples. cbn [ed_rows map PARAMS].
  rewrite mask_length; auto. apply mass_sel_length.
Qed.
Lemma filter_map_length {A B} (p : B -> bool) (f : A -> B) l : length (filter p (map f l)) = length (filter (fun x => p (f x)) l).
Proof. induction l; cbn; auto. destruct (p (f a)); cbn; auto. Qed.
Lemma small_max n : (n <= 3)%nat -> (n < MAX_SAMPLES)%nat.
Proof. intros H. assert (X : (3 < MAX_SAMPLES)%nat) by (apply Nat.ltb_lt; vm_compute; reflexivity). lia. Qed.
Definition any_cosmo : cosmo := Cosmo (Fin 0) (Fin 0) (Fin 0) (Fin 0) [] [] [].
Lemma no_rule : ~ exists keep, one_rule keep.
Proof.
  intros [keep H].
  assert (K : forall l, (length l <= 3)%nat -> length (filter (fun m => keep (Fin m) (Fin 100)) l) = n_true (mass_sel (Fin 100) (map Fin l))).
  { intros l Hl. destruct (flat_processed any_cosmo (Fin 100) "ev" l) as (d & E & Nd).
    specialize (H _ _ _ _ _ _ _ _ first_ones_ok (flat_good l) ltac:(intros X; discriminate X) E). cbn [map snd] in H. apply (f_equal (hd O)) in H. cbn [hd] in H.
    change sample_limit with MAX_SAMPLES in H. rewrite Nd in H.
    assert (L1 : (n_true (mass_sel (Fin 100) (map Fin l)) <= length l)%nat).
    { rewrite <- (mask_length _ (map Fin l)) by apply mass_sel_length. rewrite <- (map_length Fin l). apply mask_le. }
    pose proof (small_max (length l) Hl) as L2.
    assert (E2 : length (filter (fun j => keep (cell (ep_samples (flat_event l)) "mass_1_source" j) (Fin 100)) (seq 0 (length l))) = length (filter (fun m => keep (Fin m) (Fin 100)) l)).
    { change (cell (ep_samples (flat_event l)) "mass_1_source") with (fun j => nth j (map Fin l) NaN).
      rewrite <- (filter_map_length (fun m => keep m (Fin 100)) (fun j => nth j (map Fin l) NaN)), nth_seq_map by apply map_length. apply filter_map_length. }
    rewrite E2 in H.
    assert (L3 : (length (filter (fun m => keep (Fin m) (Fin 100)) l) <= length l)%nat).
    { clear. induction l as [|a r IH]; cbn; auto. destruct (keep (Fin a) (Fin 100)); cbn; lia. }
    lia. }
  assert (G1 : ngt (Fin 50) (Fin 100) = false) by (unfold ngt, nlt; apply Rltb_f; lra).
  assert (G2 : ngt (Fin 100) (Fin 100) = false) by (unfold ngt, nlt; apply Rltb_f; lra).
  assert (G3 : ngt (Fin 101) (Fin 100) = true) by (unfold ngt, nlt; apply Rltb_t; lra).
  assert (T1 : nlt (Fin 50) (Fin 100) = true) by (unfold nlt; apply Rltb_t; lra).
  assert (T2 : nlt (Fin 100) (Fin 100) = false) by (unfold nlt; apply Rltb_f; lra).
  assert (T3 : nlt (Fin 101) (Fin 100) = false) by (unfold nlt; apply Rltb_f; lra).
  pose proof (K [50; 100] ltac:(cbn; lia)) as A. pose proof (K [50; 100; 101] ltac:(cbn; lia)) as B.
  unfold mass_sel in A, B. cbn [map existsb] in A, B. rewrite G1, G2 in A, B. rewrite G3 in B. cbn [orb] in A, B. rewrite T1, T2, T3 in B.
  unfold n_true in A, B. cbn [map filter length] in A, B. destruct (keep (Fin 50) (Fin 100)), (keep (Fin 100) (Fin 100)), (keep (Fin 101) (Fin 100)); cbn [length] in A, B; congruence.
Qed.
