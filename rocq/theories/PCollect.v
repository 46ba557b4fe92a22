(** Proofs about preprocess/data_collection.py: cutting and down-sampling the catalog. *)
From Coq Require Import Lia Lra.
From Verif Require Import PConstruct PUtils NumFacts ArrFacts PSelection.
From Verif Require Export SpecCollect.
Open Scope R_scope.
Open Scope string_scope.
Open Scope list_scope.

Lemma ok_inj {A} (x y : A) : Ok x = Ok y -> x = y. Proof. congruence. Qed.
Lemma DL2z_length c dl s zs c' : DL2z c dl s = Ok (zs, c') -> length zs = length dl.
Proof.
  unfold DL2z. destruct (amax dl); cbn [rbind]; [|discriminate]. destruct (amax (cDL c)); cbn [rbind]; [|discriminate].
  destruct (ngt _ _); [discriminate|]. intros E. injection E as <- <-. now rewrite map_length.
Qed.
Lemma DL2z_same c dl s zs c' : DL2z c dl s = Ok (zs, c') -> c' = c.
Proof.
  unfold DL2z. destruct (amax dl); cbn [rbind]; [|discriminate]. destruct (amax (cDL c)); cbn [rbind]; [|discriminate].
  destruct (ngt _ _); [discriminate|]. intros E. now injection E as _ <-.
Qed.
Lemma nth_seq_map {A} (l : list A) d n : length l = n -> map (fun j => nth j l d) (seq 0 n) = l.
Proof. intros <-. transitivity (map (fun x => x) l); [symmetry; apply (map_nth_seq (fun x => x) l d)|apply map_id]. Qed.
Lemma table_seq n t k : is_table n t -> In k (keys t) -> assoc k t = Ok (map (cell t k) (seq 0 n)).
Proof.
  intros Ht Hk. destruct (table_col _ _ _ Ht Hk) as (c & Hc & Hl). rewrite Hc. f_equal. symmetry.
  rewrite <- (nth_seq_map c NaN n Hl) at 1. apply map_ext. intros j. now rewrite (cell_col _ _ _ _ Hc).
Qed.
Lemma field_seq n t k : is_table n t -> In k (keys t) -> field t k = Ok (map (cell t k) (seq 0 n)).
Proof. intros. unfold field. now rewrite (table_seq n). Qed.

(** what is known of an event after the cut *)
Definition cut_rel (c : cosmo) (mmax : num) (ke : string * event_post) (kd : string * event_data) : Prop :=
  fst kd = fst ke /\ ed_z_prior (snd kd) = ep_z_prior (snd ke) /\ ed_catalog (snd kd) = ep_catalog (snd ke) /\
  exists n z all, good_event n (snd ke) /\ redshifts_of c (snd ke) n z /\ selects n (survives mmax (snd ke) n) all /\
    ed_rows (snd kd) = map (fun p => map (sample_value (snd ke) z p) all) PARAMS.

Lemma gwtc1_rows_ok n c e rows c' : good_event n e -> is_gwtc1 e -> gwtc1_rows c (ep_samples e) = Ok (rows, c') ->
  c' = c /\ exists z, redshifts_of c e n z /\ rows = map (fun p => map (sample_value e z p) (seq 0 n)) PARAMS.
Proof.
  intros (Ht & Hg & _) G. specialize (Hg G). unfold gwtc1_rows.
  rewrite (field_seq n) by (auto; apply Hg; cbn; tauto). cbn [rbind].
  destruct (DL2z c _ _) as [[zs c1]|] eqn:EZ; cbn [rbind]; [|discriminate].
  do 6 (rewrite (field_seq n) by (auto; apply Hg; cbn; tauto); cbn [rbind]). intros E. injection E as <- <-.
  assert (Hl : length zs = n) by (rewrite (DL2z_length _ _ _ _ _ EZ), map_length, seq_length; auto).
  pose proof (DL2z_same _ _ _ _ _ EZ) as ->. split; auto. exists (fun j => nth j zs NaN). split.
  - intros _. eexists. split; [apply (table_seq n); auto; apply Hg; cbn; tauto|]. rewrite EZ. now rewrite nth_seq_map.
  - rewrite <- (nth_seq_map zs NaN n Hl) at 1 2 3 4 5. rewrite !map2_map_same. cbn [map PARAMS]. unfold sample_value. unfold is_gwtc1 in G. rewrite G. reflexivity.
Qed.
Lemma fields_ok n e p : is_table n (ep_samples e) -> forall ps, (forall q, In q ps -> In (source_name q) (keys (ep_samples e))) ->
  fields (ep_samples e) (rows n p) ps = Ok (map (fun q => map (cell (ep_samples e) (source_name q)) (filter p (seq 0 n))) ps).
Proof.
  intros Ht. induction ps as [|q r IH]; intros H; cbn [fields map]; auto.
  destruct (proj2 (field_ok n _ (source_name q) p Ht (H q ltac:(now left)))) as (c & E1 & E2). rewrite E1. cbn [rbind]. rewrite E2. cbn [rbind].
  rewrite IH by (intros; apply H; now right). reflexivity.
Qed.
Lemma existsb_rows (q : num -> bool) (f : nat -> num) n : existsb q (map f (seq 0 n)) = true <-> exists i, (i < n)%nat /\ q (f i) = true.
Proof.
  rewrite existsb_exists. split.
  - intros (x & Hx & Hq). apply in_map_iff in Hx as (i & <- & Hi). apply in_seq in Hi. exists i. split; auto; lia.
  - intros (i & Hi & Hq). exists (f i). split; auto. apply in_map_iff. exists i. split; auto. apply in_seq. lia.
Qed.
Lemma other_rows_ok n mmax e rws : good_event n e -> ~ is_gwtc1 e -> other_rows mmax (ep_samples e) = Ok rws ->
  exists all, selects n (survives mmax e n) all /\ forall z, rws = map (fun p => map (sample_value e z p) all) PARAMS.
Proof.
  intros (Ht & _ & Hg) G. specialize (Hg G). unfold other_rows. rewrite (field_seq n) by (auto; apply Hg; cbn; tauto). cbn [rbind].
  set (m := cell (ep_samples e) "mass_1_source").
  assert (E : exists p, mass_sel mmax (map m (seq 0 n)) = rows n p /\ forall j, (j < n)%nat -> (p j = true <-> survives mmax e n j)).
  { unfold mass_sel. destruct (existsb _ _) eqn:EX.
    - apply existsb_rows in EX as (i & Hi & Hm). exists (fun j => nlt (m j) mmax). split; [unfold rows; now rewrite map_map|].
      intros j Hj. unfold survives. fold m. split; auto. intros [H|[H|H]]; [now destruct G|exact H|]. unfold ngt in Hm. specialize (H i Hi). fold m in H. congruence.
    - exists (fun _ => true). split; [unfold rows; now rewrite map_map|]. intros j Hj. split; auto. intros _. right. right. intros i Hi. fold m.
      destruct (nlt mmax (m i)) eqn:EM; auto. assert (X : existsb (fun m0 => ngt m0 mmax) (map m (seq 0 n)) = true) by (apply existsb_rows; exists i; auto). congruence. }
  destruct E as (p & -> & Hp). rewrite (fields_ok n e p Ht) by (intros q Hq; apply Hg, in_map_iff; exists q; auto).
  intros E. apply ok_inj in E. subst rws. exists (filter p (seq 0 n)). split; [apply selects_filter; auto|].
  intros z. apply map_ext. intros q. apply map_ext. intros j. unfold sample_value. destruct (String.eqb_spec (ep_catalog e) "GWTC-1"); [now destruct G|reflexivity].
Qed.
Lemma cut_ok mmax cat : good_catalog cat -> forall c evs c', cut_events c mmax cat = Ok (evs, c') -> c' = c /\ Forall2 (cut_rel c mmax) cat evs.
Proof.
  intros HG. induction HG as [|[ev e] r [n Hn] Hr IH]; intros c evs c'; cbn [cut_events].
  - intros E. injection E as <- <-. split; constructor.
  - cbn [snd] in Hn. destruct (String.eqb_spec (ep_catalog e) "GWTC-1") as [G|G].
    + destruct (gwtc1_rows c (ep_samples e)) as [[rws c1]|] eqn:E1; cbn [rbind]; [|discriminate].
      destruct (cut_events c1 mmax r) as [[rest c2]|] eqn:E2; cbn [rbind]; [|discriminate]. intros E. injection E as <- <-.
      destruct (gwtc1_rows_ok n _ _ _ _ Hn G E1) as (-> & z & Hz & Hrows). destruct (IH _ _ _ E2) as [-> F]. split; auto. constructor; [|exact F].
      repeat split; auto. exists n, z, (seq 0 n). repeat split; auto; try apply Hn; try apply seq_sorted; cbn [snd]; auto;
        rewrite ?in_seq in *; try lia; try (now left).
    + destruct (other_rows mmax (ep_samples e)) as [rws|] eqn:E1; cbn [rbind]; [|discriminate].
      destruct (cut_events c mmax r) as [[rest c2]|] eqn:E2; cbn [rbind]; [|discriminate]. intros E. injection E as <- <-.
      destruct (IH _ _ _ E2) as [-> F]. split; auto. constructor; [|exact F]. destruct (other_rows_ok n _ _ _ Hn G E1) as (all & Hs & Hrows).
      repeat split; auto. exists n, (fun _ => NaN), all. split; auto. split; [intros G'; now destruct G|]. split; [exact Hs|apply Hrows].
Qed.
Lemma cut_size c mmax ke kd : cut_rel c mmax ke kd -> exists n z all, good_event n (snd ke) /\ redshifts_of c (snd ke) n z /\ selects n (survives mmax (snd ke) n) all /\
    ed_rows (snd kd) = map (fun p => map (sample_value (snd ke) z p) all) PARAMS /\ n_samples (snd kd) = length all.
Proof.
  intros (_ & _ & _ & n & z & all & A & B & C1 & D). exists n, z, all. repeat split; auto; try apply A; try apply B; try apply C1; auto.
  unfold n_samples. rewrite D. cbn. now rewrite map_length.
Qed.
Lemma fold_min (l : list nat) : forall m, let k := fold_left (fun m x => Nat.min x m) l m in (k <= m)%nat /\ (forall x, In x l -> (k <= x)%nat) /\ (k = m \/ In k l).
Proof.
  induction l as [|x r IH]; intros m; cbn [fold_left]; [repeat split; auto; intros x []|]. destruct (IH (Nat.min x m)) as (A & B & D). cbn zeta in *. repeat split.
  - lia.
  - intros y [<-|Hy]; auto. lia.
  - destruct D as [->|D]; [|right; now right]. destruct (Nat.min_spec x m) as [[_ ->]|[_ ->]]; auto. right. now left.
Qed.
Lemma common_size_spec evs : let k := common_size evs in (k <= MAX_SAMPLES)%nat /\ (forall kd, In kd evs -> (k <= n_samples (snd kd))%nat) /\
  (k = MAX_SAMPLES \/ exists kd, In kd evs /\ n_samples (snd kd) = k).
Proof.
  cbn zeta. unfold common_size. assert (E : forall m, fold_left (fun m (ed : string * event_data) => Nat.min (n_samples (snd ed)) m) evs m =
    fold_left (fun m x => Nat.min x m) (map (fun kd => n_samples (snd kd)) evs) m).
  { induction evs as [|a r IH]; intros m; cbn [fold_left map]; auto. }
  rewrite E. destruct (fold_min (map (fun kd => n_samples (snd kd)) evs) MAX_SAMPLES) as (A & B & D). cbn zeta in *. repeat split; auto.
  - intros kd H. apply B, in_map_iff. exists kd; auto.
  - destruct D as [D|D]; auto. right. apply in_map_iff in D as (kd & D & H). exists kd; auto.
Qed.

(** the processed event *)
Lemma sorted_nodup l : StronglySorted lt l -> NoDup l.
Proof. induction 1; constructor; auto. intros Ha. rewrite Forall_forall in H0. specialize (H0 _ Ha). lia. Qed.
Theorem processed_ok choice c mmax cat evs c' : is_sampling choice -> good_catalog cat ->
  processed_catalog_dataset_from_dict choice c mmax cat = Ok (evs, c') ->
  c' = c /\ exists k, (k <= MAX_SAMPLES)%nat /\ Forall2 (processed_rel c mmax k) cat evs /\
    (k = MAX_SAMPLES \/ exists ke n all, In ke cat /\ good_event n (snd ke) /\ selects n (survives mmax (snd ke) n) all /\ length all = k).
Proof.
  intros HC HG. unfold processed_catalog_dataset_from_dict. destruct (cut_events c mmax cat) as [[cut c1]|] eqn:E; cbn [rbind]; [|discriminate].
  intros E'. injection E' as <- <-. destruct (cut_ok _ _ HG _ _ _ E) as [-> F]. split; auto. destruct (common_size_spec cut) as (K1 & K2 & K3). cbn zeta in *.
  exists (common_size cut). split; auto. split.
  - clear E K1 K3. revert K2. generalize (common_size cut). intros k K2. clear HG. induction F as [|ke kd r r' Hkd F IH]; cbn [map]; constructor; [|apply IH; intros; apply K2; now right].
    specialize (K2 kd ltac:(now left)). destruct (cut_size _ _ _ _ Hkd) as (n & z & all & A & B & C1 & D & L). rewrite L in K2.
    destruct Hkd as (H1 & H2 & H3 & _). destruct ke as [ev e], kd as [ev' d]. cbn [fst snd downsample] in *. subst ev'. unfold processed_rel. cbn [fst snd ed_rows ed_z_prior ed_catalog].
    repeat split; auto. destruct (HC ev (n_samples d) k ltac:(lia)) as (C2 & C3 & C4). rewrite L in C2, C3, C4 |- *.
    exists n, z, all, (map (fun i => nth i all O) (choice ev (length all) k)). split; [exact A|]. split; [exact B|]. split; [exact C1|]. split; [exact K2|]. split; [now rewrite map_length|].
    assert (ND : NoDup all) by (apply sorted_nodup, C1). split; [|split].
    + rewrite NoDup_nth with (d := O) in ND. revert C3 C4. generalize (choice ev (length all) k). clear - ND. intros l C3 C4. induction C3 as [|i r Hi C3 IH]; cbn [map]; constructor.
      * intros Hin. apply in_map_iff in Hin as (j & E & Hj). assert (j = i); [|now subst]. apply ND; [apply C4; now right|apply C4; now left|exact E].
      * apply IH. intros; apply C4; now right.
    + intros x Hx. apply in_map_iff in Hx as (i & <- & Hi). apply nth_In, C4, Hi.
    + rewrite D, map_map. apply map_ext. intros p. rewrite !map_map. apply map_ext_in. intros i Hi.
      rewrite (nth_indep _ NaN (sample_value e z p O)) by (rewrite map_length; auto). apply map_nth.
  - destruct K3 as [K3|(kd & H & K3)]; auto. right.
    clear - F H K3. revert K3. generalize (common_size cut). intros k K3. induction F as [|ke kd' r r' Hkd F IH]; [destruct H|]. destruct H as [->|H].
    + destruct (cut_size _ _ _ _ Hkd) as (n & z & all & A & B & C1 & D & L). exists ke, n, all. split; [now left|]. split; [exact A|]. split; [exact C1|]. congruence.
    + destruct (IH H) as (ke' & n & all & A & B). exists ke', n, all. split; auto. now right.
Qed.

(** C78 *)
Lemma is_table_one (ev : string) (e : event_post) n : good_event n e -> good_catalog ((ev, e) :: nil).
Proof. intros H. constructor; [exists n; exact H|constructor]. Qed.
Lemma pick_ok {A} (f : list bool) (x : list A) : length f = length x -> pick f x = Ok (mask f x).
Proof. intros H. unfold pick. now rewrite H, Nat.eqb_refl. Qed.
Lemma gwtc1_uncut choice c mmax mmax' ev e : is_gwtc1 e ->
  processed_catalog_dataset_from_dict choice c mmax ((ev, e) :: nil) = processed_catalog_dataset_from_dict choice c mmax' ((ev, e) :: nil).
Proof. intros G. unfold processed_catalog_dataset_from_dict. cbn [cut_events]. unfold is_gwtc1 in G. rewrite G, String.eqb_refl. reflexivity. Qed.
