(** Proofs about saving, loading and the chain from catalog to likelihood data. *)
From Coq Require Import Lia Lra.
From Verif Require Import PConstruct PUtils NumFacts ArrFacts PSelection PCollect PCollectAppend PCollectPost PCollectEnd PCollectCut PCosmologyR PSelection2 PCollectChi PCollect.
From Verif Require Export SpecStore Spec.
Open Scope R_scope.
Open Scope string_scope.
Open Scope list_scope.

(** ** File names *)
Lemma index_some s n : String.index 0 ".h5" s = Some n -> h5_name s.
Proof.
  revert n. induction s as [|a s IH]; intros n; cbn [String.index]; [cbn; discriminate|].
  destruct (String.prefix ".h5" (String a s)) eqn:P.
  - intros _. apply String.prefix_correct in P. exists "", (substring 3 (String.length s) (String a s)).
    cbn in P. destruct s as [|b [|d s]]; try discriminate. cbn in P. injection P as -> -> ->. cbn [append]. do 3 f_equal. 
    clear. cbn. induction s; cbn; auto. now rewrite <- IHs at 1.
  - destruct (String.index 0 ".h5" s) as [m|] eqn:E; [|discriminate]. intros _. destruct (IH m eq_refl) as (u & v & ->). exists (String a u), v. reflexivity.
Qed.
Lemma index_none s : String.index 0 ".h5" s = None -> ~ h5_name s.
Proof.
  induction s as [|a s IH]; cbn [String.index]; intros E (u & v & X).
  - destruct u; discriminate.
  - destruct (String.prefix ".h5" (String a s)) eqn:P; [discriminate|]. destruct (String.index 0 ".h5" s) eqn:Es; [discriminate|].
    destruct u as [|b u].
    + cbn in X. injection X as -> ->. cbn in P. destruct v; discriminate.
    + cbn in X. injection X as -> ->. apply IH; auto. now exists u, v.
Qed.

(** ** Saving and loading *)
Lemma save_refused fs name a i : ~ h5_name name -> save_posterior_samples_and_injection_datasets_as_idata fs name a i = Err AssertionError.
Proof. intros H. unfold save_posterior_samples_and_injection_datasets_as_idata. destruct (String.index 0 ".h5" name) eqn:E; auto. destruct H. eapply index_some; eauto. Qed.
Lemma save_ok fs name a i : h5_name name -> save_posterior_samples_and_injection_datasets_as_idata fs name a i = Ok (dset name (file_of a i) fs).
Proof. intros H. unfold save_posterior_samples_and_injection_datasets_as_idata. destruct (String.index 0 ".h5" name) eqn:E; auto. destruct (index_none _ E H). Qed.
Lemma file_good a i : complete a i -> good_file (file_of a i).
Proof. intros (A & B & D). repeat split; auto. Qed.
Lemma dict_ext {A} (d d' : dict A) dflt : NoDup (keys d) -> keys d' = keys d -> (forall n k, nth_error (keys d) n = Some k -> assoc k d' = Ok (nth n (map snd d) dflt)) -> d' = d.
Proof.
  revert d'. induction d as [|[k v] r IH]; intros [|[k' v'] r'] N K H; cbn in K; try discriminate; auto. injection K as -> K. inversion N as [|? ? N1 N2]; subst.
  pose proof (H O k eq_refl) as H0. cbn in H0. rewrite String.eqb_refl in H0. injection H0 as ->. f_equal. apply IH; auto.
  intros n q Hq. specialize (H (S n) q Hq). cbn in H. destruct (String.eqb_spec q k) as [Eq|_]; auto. destruct N1. rewrite <- Eq. eapply nth_error_In; eauto.
Qed.
Lemma load_returns fs name a i ignore : complete a i -> exists r, load_file (dset name (file_of a i) fs) name ignore = Ok r /\ returned a i ignore r.
Proof.
  intros Hc. destruct (load_drops (file_of a i) ignore (file_good _ _ Hc)) as (pe & inj & E & K1 & K2 & V1 & V2). unfold load_file. rewrite assoc_dset_same, E. eexists. split; [reflexivity|].
  cbn [returned k_total k_time file_of i_total i_time i_pe_params]. split; [exact K1|]. split; auto. split; [|split; [reflexivity|split; [reflexivity|exact V1]]].
  apply (dict_ext _ _ []); auto. apply Hc.
Qed.
Lemma after_other fs ss name : (forall s, In s ss -> fst s <> name) -> assoc name (after_saves fs ss) = assoc name fs.
Proof.
  revert fs. induction ss as [|s ss IH]; intros fs H; [reflexivity|]. unfold after_saves. cbn [fold_left]. change (assoc name (after_saves (after_save fs s) ss) = assoc name fs).
  rewrite IH by (intros; apply H; now right). unfold after_save, save_posterior_samples_and_injection_datasets_as_idata. destruct (String.index 0 ".h5" (fst s)); auto.
  apply assoc_dset_other. intros E. apply (H s); [now left|auto].
Qed.
(** whatever was saved before, and whatever is saved under other names afterwards *)
Theorem saved_last fs before after name a i ignore : h5_name name -> complete a i -> (forall s, In s after -> fst s <> name) ->
  exists r, load_file (after_saves fs (before ++ (name, (a, i)) :: after)) name ignore = Ok r /\ returned a i ignore r.
Proof.
  intros Hn Hc Ha. destruct (load_returns (after_saves fs before) name a i ignore Hc) as (r & E & H). exists r. split; auto. rewrite <- E.
  unfold load_file. unfold after_saves. rewrite fold_left_app. cbn [fold_left]. fold (after_saves fs before). fold (after_saves (after_save (after_saves fs before) (name, (a, i))) after).
  rewrite after_other by auto. unfold after_save at 1. cbn [fst snd]. now rewrite save_ok.
Qed.
Theorem never_saved fs ss name ignore : (forall s, In s ss -> fst s <> name) \/ ~ h5_name name -> load_file (after_saves fs ss) name ignore = load_file fs name ignore.
Proof.
  intros [H|H]; unfold load_file.
  - now rewrite after_other.
  - assert (E : assoc name (after_saves fs ss) = assoc name fs); [|now rewrite E]. revert fs. induction ss as [|s ss IH]; intros fs; [reflexivity|].
    change (assoc name (after_saves (after_save fs s) ss) = assoc name fs). rewrite IH. unfold after_save. destruct (string_dec (fst s) name) as [E|E].
    + rewrite E, save_refused by auto. reflexivity.
    + unfold save_posterior_samples_and_injection_datasets_as_idata. destruct (String.index 0 ".h5" (fst s)); auto. now apply assoc_dset_other; auto.
Qed.

(** ** The chain *)
Lemma Hstep : 0 < DEFAULT_DZ. Proof. exact Hdz. Qed.
Lemma assoc_in_keys {A} k (d : dict A) v : assoc k d = Ok v -> In k (keys d).
Proof. induction d as [|[k' v'] d IH]; cbn; [discriminate|]. destruct (String.eqb k k') eqn:E; [apply String.eqb_eq in E; auto|auto]. Qed.
Section Chain.
Variables ho om orad ol zm : R.
Variable c : cosmo.
Hypothesis HF : flat ho om orad ol.
Hypothesis Hzm : 0 < zm.
Hypothesis HC : make_cosmo (Fin ho) (Fin om) (Fin orad) (Fin ol) (Fin zm) (Fin DEFAULT_DZ) = Ok c.
Variable qs : list query.
Let c1 := history c qs (Fin DEFAULT_DZ).

Lemma event_size n n' e : good_event n e -> good_event n' e -> n = n'.
Proof.
  intros (T & A & B) (T' & _). destruct (string_dec (ep_catalog e) "GWTC-1") as [G|G].
  - apply (is_table_size n n' _ "spin1" T T'), A; auto. cbn. tauto.
  - apply (is_table_size n n' _ "redshift" T T'), (B G). cbn. tauto.
Qed.
Lemma distances mmax e n : usable c mmax e -> is_gwtc1 e -> good_event n e ->
  exists zs, (forall j, (j < n)%nat -> 0 <= zs j) /\ exists dl, assoc "luminosity_distance_Mpc" (ep_samples e) = Ok dl /\
    DL2z c dl (Fin DEFAULT_DZ) = Ok (map (fun j => Fin (zs j)) (seq 0 n), c) /\ DL2z c1 dl (Fin DEFAULT_DZ) = Ok (map (fun j => Fin (zs j)) (seq 0 n), c1).
Proof.
  intros (_ & n' & G & (j0 & Hj0 & _) & U & _) G1 Gn. pose proof (event_size _ _ _ G Gn) as ->. destruct (U G1) as (_ & w & b & TE & D). unfold c1.
  destruct (made _ _ _ _ _ _ _ HF Hdz Hzm HC) as (n0 & Hn0 & E0). rewrite E0 in *. destruct (history_step _ _ _ _ HF DEFAULT_DZ Hdz qs n0 Hn0) as (m & Hm & EH). rewrite EH.
  apply table_end_tab in TE; auto. destruct TE as [-> ->]. set (e1 := cell (ep_samples e) "luminosity_distance_Mpc") in *.
  assert (DD : exists d : nat -> R, forall j, (j < n)%nat -> e1 j = Fin (d j) /\ 0 <= d j <= L ho om orad DEFAULT_DZ (n0 - 1)).
  { exists (fun j => match e1 j with Fin r => r | _ => 0 end). intros j Hj. destruct (D j Hj) as (d & mm & E & R & _). rewrite E. auto. }
  destruct DD as (d & Hd). set (dr := map d (seq 0 n)).
  assert (Hdr : dr <> []) by (unfold dr; destruct n; [lia|discriminate]).
  assert (Hb : forall x, In x dr -> x <= L ho om orad DEFAULT_DZ (n0 - 1)) by (intros x Hx; apply in_map_iff in Hx as (j & <- & Hj); apply in_seq in Hj; apply Hd; lia).
  destruct (same_answer _ _ _ ol HF DEFAULT_DZ Hdz n0 m (QDL2z (map Fin dr)) Hn0 Hm ltac:(exists dr; auto)) as (ans & A1 & A2). cbn [ask] in A1, A2.
  rewrite (DL2z_in ho om orad ol HF DEFAULT_DZ Hdz n0 dr) in A1 by auto. injection A1 as <-.
  exists (fun j => Zof ho om orad DEFAULT_DZ n0 (d j)). split; [intros j Hj; apply (Zof_range ho om orad ol HF DEFAULT_DZ Hdz n0 (d j) Hn0)|].
  exists (map Fin dr). assert (EM : map Fin (map (Zof ho om orad DEFAULT_DZ n0) dr) = map (fun j => Fin (Zof ho om orad DEFAULT_DZ n0 (d j))) (seq 0 n)) by (unfold dr; now rewrite !map_map).
  split; [|split].
  - destruct Gn as (T & I & _). rewrite (table_seq n) by (auto; apply (I G1); cbn; tauto). f_equal. unfold dr. rewrite map_map. apply map_ext_in. intros j Hj. apply in_seq in Hj. fold e1. apply Hd. lia.
  - rewrite (DL2z_in ho om orad ol HF DEFAULT_DZ Hdz n0 dr) by auto. now rewrite EM.
  - rewrite A2. now rewrite EM.
Qed.
Lemma real_values mmax e n z : usable c mmax e -> good_event n e -> redshifts_of c1 e n z ->
  redshifts_of c e n z /\ forall p j, In p PARAMS -> (j < n)%nat -> exists x, sample_value e z p j = Fin x.
Proof.
  intros U G Z. destruct (string_dec (ep_catalog e) "GWTC-1") as [G1|G1].
  - destruct (distances _ _ _ U G1 G) as (zs & Hz & dl & E & E1 & E2). destruct (Z G1) as (dl' & E' & E3). assert (dl' = dl) by congruence. subst dl'.
    rewrite E2 in E3. assert (EQ : map z (seq 0 n) = map (fun j => Fin (zs j)) (seq 0 n)) by congruence. split; [intros _; exists dl; split; auto; now rewrite EQ|].
    assert (EZ : forall j, (j < n)%nat -> z j = Fin (zs j)).
    { intros j Hj. apply (ext_in_map EQ). apply in_seq. lia. }
    destruct U as (_ & n' & G' & _ & U & _). pose proof (event_size _ _ _ G' G) as ->. destruct (U G1) as (F & w0 & b0 & _ & D).
    intros p j Hp Hj. destruct (D j Hj) as (d & m & _ & _ & Em & Pm). destruct (F "m2_detector_frame_Msun" j ltac:(cbn; tauto) Hj) as (m2 & Em2). pose proof (Hz j Hj) as Hz'.
    destruct (F "spin1" j ltac:(cbn; tauto) Hj) as (s1 & Es1). destruct (F "spin2" j ltac:(cbn; tauto) Hj) as (s2 & Es2).
    destruct (F "costilt1" j ltac:(cbn; tauto) Hj) as (t1 & Et1). destruct (F "costilt2" j ltac:(cbn; tauto) Hj) as (t2 & Et2).
    unfold sample_value. rewrite G1, (EZ j Hj), Em, Em2, Es1, Es2, Et1, Et2, nadd_fin, !ndiv_fin by lra. change (String.eqb "GWTC-1" "GWTC-1") with true. cbv iota.
    assert (0 < m / (1 + zs j)) by (apply Rdiv_lt_0_compat; lra). rewrite ndiv_fin by lra.
    repeat match goal with |- context [String.eqb p ?k] => destruct (String.eqb p k); [eauto|] end. eauto.
  - split; [intros G'; now destruct G1|]. destruct U as (_ & n' & G' & _ & _ & U). pose proof (event_size _ _ _ G' G) as ->. intros p j Hp Hj. unfold sample_value.
    destruct (String.eqb_spec (ep_catalog e) "GWTC-1") as [X|_]; [now destruct G1|]. apply U; auto.
Qed.
Lemma usable_good mmax cat : Forall (fun ke : string * event_post => usable c mmax (snd ke)) cat -> good_catalog cat.
Proof. intros H. eapply Forall_impl; [|exact H]. intros ke (_ & n & G & _). eauto. Qed.
Lemma processed_runs choice mmax cat : Forall (fun ke : string * event_post => usable c mmax (snd ke)) cat ->
  exists evs, processed_catalog_dataset_from_dict choice c1 mmax cat = Ok (evs, c1).
Proof.
  intros H. unfold processed_catalog_dataset_from_dict. assert (X : exists cut, cut_events c1 mmax cat = Ok (cut, c1)).
  { induction H as [|[ev e] r U H IH]; cbn [cut_events]; [eauto|]. cbn [snd] in U. destruct IH as [cut IH].
    destruct (String.eqb_spec (ep_catalog e) "GWTC-1") as [G1|G1].
    - pose proof U as U'. destruct U as (_ & n & G & _). destruct (distances _ _ _ U' G1 G) as (zs & _ & dl & E & _ & E2).
      unfold gwtc1_rows, field at 1. rewrite E. cbn [rbind]. rewrite E2. cbn [rbind]. destruct G as (T & I & _). specialize (I G1).
      do 6 (rewrite (field_seq n) by (auto; apply I; cbn; tauto); cbn [rbind]). rewrite IH. cbn [rbind]. eauto.
    - destruct U as (_ & n & (T & _ & I) & _). specialize (I G1). unfold other_rows. rewrite (field_seq n _ "mass_1_source" T) by (apply I; cbn; tauto). cbn [rbind].
      destruct (PCollectChi.fields_ok n (ep_samples e) (mass_sel mmax (map (cell (ep_samples e) "mass_1_source") (seq 0 n))) PARAMS T) as [rws ->]; auto.
      { rewrite PCollectCut.mass_sel_length, map_length. apply seq_length. }
      cbn [rbind]. rewrite IH. cbn [rbind]. eauto. }
  destruct X as [cut ->]. cbn [rbind]. eauto.
Qed.

Lemma select_nonempty n P l : selects n P l -> (exists j, (j < n)%nat /\ P j) -> (0 < length l)%nat.
Proof. intros [_ S] (j & Hj & Pj). destruct l; [|cbn; lia]. destruct (proj2 (S j) (conj Hj Pj)). Qed.
Lemma assoc_combine (ps : list string) : forall (row : list (list num)) n p v, NoDup ps -> nth_error ps n = Some p -> assoc p (combine ps row) = Ok v -> nth n row [] = v.
Proof.
  induction ps as [|q ps IH]; intros row [|n] p v N E H; try discriminate; inversion N as [|? ? N1 N2]; subst; destruct row as [|x row]; cbn in H; try discriminate.
  - cbn in E. injection E as ->. rewrite String.eqb_refl in H. injection H as ->. reflexivity.
  - cbn in E. destruct (String.eqb_spec p q) as [Eq|_]; [destruct N1; rewrite <- Eq; eapply nth_error_In; eauto|]. cbn. eapply IH; eauto.
Qed.
Lemma map_combine_snd {A B D} (f : B -> D) (l : list A) : forall m, length m = length l -> map (fun er => f (snd er)) (combine l m) = map f m.
Proof. induction l as [|a l IH]; intros [|b m] H; cbn in *; try discriminate; auto. rewrite IH by lia. reflexivity. Qed.
Lemma Forall2_nth {A B} (P : A -> B -> Prop) l m i a : Forall2 P l m -> nth_error l i = Some a -> exists b, nth_error m i = Some b /\ P a b.
Proof. intros F. revert i. induction F as [|x y l m H F IH]; intros [|i] E; try discriminate; cbn in *; [injection E as ->; eauto|auto]. Qed.
Lemma Forall2_len {A B} (P : A -> B -> Prop) l m : Forall2 P l m -> length l = length m.
Proof. induction 1; cbn; auto. Qed.
Lemma real_rows mmax k cat evs : Forall (fun ke : string * event_post => usable c mmax (snd ke)) cat -> Forall2 (processed_rel c1 mmax k) cat evs ->
  exists xs, Forall2 (fun ed x => real_event k (snd ed) x) evs xs.
Proof.
  intros U F. revert U. induction F as [|ke kd r r' H F IH]; intros U; [exists []; constructor|]. inversion U as [|? ? U1 U2]; subst. destruct (IH U2) as [xs Hxs].
  destruct H as (_ & _ & _ & n & z & all & js & G & Z & S & _ & L & _ & I & E). destruct (real_values _ _ _ _ U1 G Z) as [_ V].
  exists ((fun p i => match sample_value (snd ke) z p (nth i js O) with Fin r => r | _ => 0 end) :: xs). constructor; [|exact Hxs].
  unfold real_event. rewrite E. apply map_ext_in. intros p Hp. rewrite <- L. transitivity (map (fun i => sample_value (snd ke) z p (nth i js O)) (seq 0 (length js))).
  - symmetry. rewrite <- (map_map (fun i => nth i js O) (sample_value (snd ke) z p)). now rewrite (nth_seq_map js O (length js) eq_refl).
  - apply map_ext_in. intros i Hi. apply in_seq in Hi. destruct (V p (nth i js O) Hp) as [x Ex]; [|now rewrite Ex].
    apply S. apply I. apply nth_In. lia.
Qed.

Theorem whole_chain h5 read choice w mmax meta kf cat names fs filename file o4a cuts ifar snr n t dens total P :
  Forall2 (stored h5) meta cat -> cat <> [] -> Forall (fun ke : string * event_post => usable c mmax (snd ke)) cat -> is_sampling choice ->
  reads names ifar snr file o4a cuts n t dens total P -> ~ In "chi_eff" names -> incl names (available names) -> h5_name filename ->
  exists a c2 i fs' pe inj ps time,
    load_posterior_dataset h5 read choice w c1 mmax (Some meta) kf names = Ok (a, c2) /\
    load_injection_dataset w (read_injections file names o4a true ifar snr cuts) names = Ok i /\
    save_posterior_samples_and_injection_datasets_as_idata fs filename a i = Ok fs' /\
    load_file fs' filename None = Ok (pe, inj, Constants total time (length cat), ps) /\
    (forall p, In p ps <-> In p names \/ p = "prior") /\ keys pe = ps /\ (forall p rows, assoc p pe = Ok rows -> length rows = length cat) /\
    (exists sel, selects n P sel /\ plain_columns t names (requested_prior t names dens) sel inj) /\
    exists size zs pze pzc, (1 <= size <= 10000)%nat /\ increasing zs /\ nth 0 zs 0 = 0 /\ euclidean_prior ho om orad c1 zs pze /\ comoving_prior ho om orad zs pzc /\
      forall k ev e, nth_error cat k = Some (ev, e) -> event_data_is c names mmax (fun zp => if String.eqb zp "euclidean" then pze else pzc) size pe k e.
Proof.
  intros HM Hne HU HS HR Hchi Hi Hh. assert (EM : unprocessed_catalog_dict_from_metadata h5 meta = Ok cat) by (apply catalog_read; exact HM).
  destruct (processed_runs choice mmax cat HU) as [evs EP]. destruct (processed_ok _ _ _ _ _ _ HS (usable_good _ _ HU) EP) as (_ & k & Hk & F & K).
  assert (Hk0 : (0 < k)%nat).
  { destruct K as [->|(ke & n' & all & Hin & G & S & <-)]; [apply (small_max 0); lia|]. rewrite Forall_forall in HU. destruct (HU ke Hin) as (_ & n2 & G2 & X & _).
    pose proof (event_size _ _ _ G2 G) as ->. eapply select_nonempty; eauto. }
  assert (Hne' : evs <> []) by (intros ->; inversion F; subst; congruence).
  destruct (real_rows _ _ _ _ HU F) as [xs HX].
  assert (HV : Forall (fun ed : string * event_data => In (ed_z_prior (snd ed)) ["euclidean"; "comoving"]) evs).
  { clear - F HU. induction F as [|ke kd r r' H F IH]; constructor; inversion HU as [|? ? U1 U2]; subst; auto. destruct H as (_ & -> & _). apply U1. }
  destruct (append_ok ho om orad ol zm c qs evs k xs names HF Hzm HC Hne' Hk0 HX HV) as (full & c2 & zs & pe0 & pc0 & pze & pzc & EA & (Hinc & _ & Hz0 & _) & (GE & LE & dl & ce & EE & PE0) & (GC & LC & d & cc & cc2 & EC & PC0) & A1 & A2 & A3 & A4).
  fold c1 in EA, EE.
  assert (Hi' : incl names PARAMS). { intros p Hp. specialize (Hi p Hp). unfold available in Hi; as_model. apply in_app_or in Hi. destruct Hi as [Hi|Hi]; [cbn in *; tauto|]. destruct (requested "a_1" names); cbn in *; tauto. }
  destruct (load_posterior_plain h5 read choice w c1 mmax meta kf names cat evs c1 full c2 EM EP EA Hchi Hi') as (a & EL & B1 & B2 & B3 & B4 & B5).
  destruct (end_plain w _ _ _ _ _ _ _ _ _ _ _ HR Hchi Hi) as (sel & i & EI & Hsel & HT & HPC).
  assert (HCm : complete a i). { split; [rewrite B1, B2; unfold keys; now rewrite map_length|]. split; auto. apply HPC. }
  destruct (load_drops (file_of a i) None (file_good _ _ HCm)) as (pe & inj & E & K1 & K2 & V1 & V2). cbn [file_of i_total i_time i_post i_pe_params i_inj_params i_inj i_events] in *.
  assert (EI2 : inj = ij_params i) by (apply (dict_ext _ _ []); auto; apply HPC).
  exists a, c2, i, (dset filename (file_of a i) fs), pe, inj, (pe_params a), (ij_time i). split; [exact EL|]. split; [exact EI|]. split; [now apply save_ok|].
  split. { unfold load_file. rewrite assoc_dset_same, E, HT. replace (length (pe_values a)) with (length cat); [reflexivity|]. rewrite B2. eapply Forall2_len; eauto. }
  split; [exact B4|]. split; [exact K1|]. split.
  { intros p rows HR0. assert (Hin : In p (pe_params a)) by (rewrite <- K1; apply (assoc_in_keys p pe rows HR0)). apply In_nth_error in Hin as (q & Hq). rewrite (V1 q p Hq) in HR0. injection HR0 as <-.
    unfold remaining. cbn [file_of i_events i_post]. rewrite (filter_all (fun er => negb (ignoredb None (fst er)))) by auto.
    rewrite map_length, combine_length, B1, B2. unfold keys. rewrite map_length, Nat.min_id. symmetry. eapply Forall2_len; eauto. }
  split; [exists sel; split; auto; subst inj; exact HPC|].
  exists k, zs, pze, pzc. split; [split; [exact Hk0|exact Hk]|]. split; [exact Hinc|]. split; [exact Hz0|]. split; [exists pe0, dl, ce; auto|]. split; [exists pc0, d, cc, cc2; auto|].
  intros x ev e Hx. destruct (Forall2_nth _ _ _ _ _ F Hx) as ([ev' ed] & Hed & Q). destruct Q as (Q1 & Q2 & Q3 & n' & z & all & js & G & Z & S & Hall & L & ND & I & ER). cbn [fst snd] in *.
  rewrite Forall_forall in HU. assert (U := HU _ (nth_error_In _ _ Hx)). cbn [snd] in U. destruct (real_values _ _ _ _ U G Z) as [Z' RV].
  destruct (Forall2_nth _ _ _ _ _ HX Hed) as (xf & Hxf & RE). cbn [snd] in RE.
  assert (Hxl : (x < length evs)%nat) by (apply nth_error_Some; rewrite Hed; discriminate).
  exists n', z, js. split; [exact G|]. split; [exact Z'|]. split; [exact L|]. split; [exact ND|]. split; [intros j Hj; apply S; apply I; exact Hj|].
  assert (ROW : forall p v, In p names \/ p = "prior" -> assoc p (pe_event full x) = Ok v -> exists rows, assoc p pe = Ok rows /\ nth_error rows x = Some v).
  { intros p v Hp Hv. pose proof (proj2 (B4 p) Hp) as Hin. apply In_nth_error in Hin as (q & Hq). rewrite (V1 q p Hq). eexists. split; [reflexivity|].
    unfold remaining. cbn [file_of i_events i_post]. rewrite (filter_all (fun er => negb (ignoredb None (fst er)))) by auto.
    rewrite (map_combine_snd (fun r => nth q r [])) by (rewrite B1, B2; unfold keys; now rewrite map_length).
    rewrite nth_error_map. rewrite (nth_error_nth' (pe_values a) []) by (rewrite B2; exact Hxl). cbn [option_map]. f_equal.
    apply (assoc_combine (pe_params a) _ q p v B3 Hq). rewrite <- Hv. apply B5; auto. }
  assert (FULL : pe_event full x = combine (PARAMS ++ "prior" :: nil) (nth x (pe_values full) [])) by (unfold pe_event; now rewrite A2).
  rewrite (A4 x (ev', ed) xf Hed Hxf) in FULL. cbn [snd] in FULL. rewrite ER in FULL. split.
  - intros p Hp. apply ROW; auto. rewrite FULL. specialize (Hi' p Hp). cbn [PARAMS In] in Hi'. decompose [or] Hi'; try contradiction; subst p; reflexivity.
  - destruct (ROW "prior" _ (or_intror eq_refl) ltac:(rewrite FULL; reflexivity)) as (rows & R1 & R2). exists rows, (map (fun j => sample_prior names (if String.eqb (ed_z_prior ed) "euclidean" then pze else pzc) (xf "redshift" j) (xf "mass_1" j)) (seq 0 k)).
    split; [exact R1|]. split; [rewrite R2, map_map; reflexivity|]. rewrite Q2. rewrite <- (nth_seq_map js O k L) at 1.
    assert (XV : forall p q, In p PARAMS -> (q < k)%nat -> sample_value e z p (nth q js O) = Fin (xf p q)).
    { intros p q Hp Hq. unfold real_event in RE. rewrite ER in RE. pose proof (ext_in_map RE p Hp) as EQ. cbn beta in EQ. 
      assert (X : nth_error (map (sample_value e z p) js) q = nth_error (map (fun j => Fin (xf p j)) (seq 0 k)) q) by now rewrite EQ.
      rewrite !nth_error_map in X. rewrite (nth_error_nth' js O) in X by lia. rewrite (nth_error_nth' (seq 0 k) O) in X by (rewrite seq_length; lia). rewrite seq_nth in X by lia. cbn in X. congruence. }
    assert (FF : forall l, (forall q, In q l -> (q < k)%nat) -> Forall2 (fun j v => exists zz m1, sample_value e z "redshift" j = Fin zz /\ sample_value e z "mass_1" j = Fin m1 /\
       v = sample_prior names (if String.eqb (ep_z_prior e) "euclidean" then pze else pzc) zz m1) (map (fun j => nth j js O) l)
       (map (fun j => sample_prior names (if String.eqb (ep_z_prior e) "euclidean" then pze else pzc) (xf "redshift" j) (xf "mass_1" j)) l)).
    { induction l as [|q l IH]; intros Hl; cbn [map]; constructor; [|apply IH; intros; apply Hl; now right]. exists (xf "redshift" q), (xf "mass_1" q). assert (q < k)%nat by (apply Hl; now left).
      split; [apply XV; auto; cbn; tauto|]. split; [apply XV; auto; cbn; tauto|reflexivity]. }
    apply FF. intros q Hq. apply in_seq in Hq. lia.
Qed.
End Chain.

(** an event of which nothing is left *)
Theorem event_lost h5 read choice w c mmax meta kf cat names ev e : Forall2 (stored h5) meta cat -> good_catalog cat -> Forall (fun ke : string * event_post => ~ is_gwtc1 (snd ke)) cat ->
  is_sampling choice -> In "redshift" names -> In (ev, e) cat -> (forall n j, good_event n e -> (j < n)%nat -> ~ survives mmax e n j) ->
  load_posterior_dataset h5 read choice w c mmax (Some meta) kf names = Err ValueError.
Proof.
  intros HM HG HN HS Hr Hin HL. assert (EM : unprocessed_catalog_dict_from_metadata h5 meta = Ok cat) by (apply catalog_read; exact HM).
  destruct (processed_succeeds choice c mmax cat HG HN) as [evs EP]. destruct (processed_ok _ _ _ _ _ _ HS HG EP) as (_ & k & Hk & F & K).
  assert (k = 0)%nat as ->.
  { destruct (In_nth_error _ _ Hin) as [q Hq]. destruct (Forall2_nth _ _ _ _ _ F Hq) as (kd & _ & (_ & _ & _ & n & z & all & js & G & _ & S & Hle & _)). cbn [snd] in *.
    destruct all as [|j all]; [cbn in Hle; lia|]. destruct (HL n j G); apply S; now left. }
  assert (HX : exists xs, Forall2 (fun ed x => real_event 0 (snd ed) x) evs xs).
  { clear - F. induction F as [|ke kd r r' H F [xs IH]]; [exists []; constructor|]. exists ((fun _ _ => 0) :: xs). constructor; auto.
    destruct H as (_ & _ & _ & n & z & all & js & _ & _ & _ & _ & L & _ & _ & E). unfold real_event. rewrite E. destruct js; [|discriminate]. reflexivity. }
  destruct HX as [xs HX]. unfold load_posterior_dataset. cbn [rbind]. rewrite EM. cbn [rbind]. rewrite EP. cbn [rbind].
  rewrite (append_empty c evs xs names); auto. intros ->. inversion F; subst. destruct Hin.
Qed.
