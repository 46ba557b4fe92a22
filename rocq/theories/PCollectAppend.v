(** Proofs about append_prior_to_processed_catalog. *)
From Coq Require Import Lia Lra.
From Verif Require Import PConstruct PUtils NumFacts ArrFacts Interp PSelection PCosmologyR PSplinePert.
From Verif Require Export PCollectPrior.
From Verif Require Export Spec.
Open Scope R_scope.
Open Scope string_scope.
Open Scope list_scope.

Lemma nanmax_step a l : fold_left (fun m x => if nisnan m then x else if nisnan x then m else nmax m x) (map Fin l) (Fin a) = Fin (fold_left Rmax l a).
Proof.
  revert a. induction l as [|x r IH]; intros a; cbn [map fold_left]; auto. cbn [nisnan].
  replace (nmax (Fin a) (Fin x)) with (Fin (Rmax a x)); [apply IH|]. unfold nmax. cbn. unfold Rmax, Rltb, Rleb. repeat destruct (Rlt_dec _ _); repeat destruct (Rle_dec _ _); f_equal; lra.
Qed.
Lemma fold_Rmax_ge l : forall a, a <= fold_left Rmax l a /\ forall x, In x l -> x <= fold_left Rmax l a.
Proof.
  induction l as [|y r IH]; intros a; cbn [fold_left]; [split; [lra|intros x []]|]. destruct (IH (Rmax a y)) as [A B].
  pose proof (Rmax_l a y). pose proof (Rmax_r a y). split; [lra|]. intros x [<-|Hx]; [lra|auto].
Qed.
Lemma nanmax_fin l : (l = [] /\ nanmax (map Fin l) = NaN) \/ exists m, nanmax (map Fin l) = Fin m /\ forall x, In x l -> x <= m.
Proof.
  destruct l as [|a r]; [now left|]. right. exists (fold_left Rmax r a). unfold nanmax. cbn [map fold_left nisnan]. split; [apply nanmax_step|].
  destruct (fold_Rmax_ge r a) as [A B]. intros x [<-|Hx]; auto.
Qed.
Lemma row_real k d x p i : real_event k d x -> index_of p PARAMS = Ok i -> nth_error PARAMS i = Some p -> row_of p d = Ok (map (fun j => Fin (x p j)) (seq 0 k)).
Proof. intros E I N. unfold row_of. rewrite I. cbn [rbind]. rewrite E. erewrite map_nth_error by exact N. reflexivity. Qed.
Lemma row_z k d x : real_event k d x -> row_of "redshift" d = Ok (map (fun j => Fin (x "redshift" j)) (seq 0 k)).
Proof. intros E. apply (row_real k d x "redshift" 3); auto. Qed.
Lemma row_m k d x : real_event k d x -> row_of "mass_1" d = Ok (map (fun j => Fin (x "mass_1" j)) (seq 0 k)).
Proof. intros E. apply (row_real k d x "mass_1" 0); auto. Qed.
Lemma n_real k d x : real_event k d x -> n_samples d = k.
Proof. intros E. unfold n_samples. rewrite E. cbn. now rewrite map_length, seq_length. Qed.
Lemma repeat_seq {A} (a : A) k : repeat a k = map (fun _ => a) (seq 0 k).
Proof. generalize 0%nat. induction k; intros; cbn; f_equal; auto. Qed.
Lemma all_z_real k evs xs : Forall2 (fun ed x => real_event k (snd ed) x) evs xs ->
  all_z evs = Ok (map Fin (flat_map (fun x => map (fun j => x "redshift" j) (seq 0 k)) xs)).
Proof.
  induction 1 as [|[ev d] x r r' E F IH]; cbn [all_z flat_map]; auto. cbn [snd] in E. rewrite (row_z _ _ _ E). cbn [rbind]. rewrite IH. cbn [rbind].
  rewrite map_app, map_map. reflexivity.
Qed.
Lemma z_max_real k evs xs : evs <> [] -> (0 < k)%nat -> Forall2 (fun ed x => real_event k (snd ed) x) evs xs ->
  exists zmax, catalog_z_max evs = Ok (Fin zmax) /\ 19 / 10 <= zmax /\ forall x j, In x xs -> (j < k)%nat -> x "redshift" j <= zmax.
Proof.
  intros Hne Hk F. unfold catalog_z_max. rewrite (all_z_real _ _ _ F). cbn [rbind]. cbv zeta.
  set (l := flat_map (fun x => map (fun j => x "redshift" j) (seq 0 k)) xs).
  assert (Hl : forall x j, In x xs -> (j < k)%nat -> In (x "redshift" j) l).
  { intros x j Hx Hj. unfold l. apply in_flat_map. exists x. split; auto. apply in_map_iff. exists j. split; auto. apply in_seq. lia. }
  assert (Hl0 : l <> []).
  { destruct F as [|ed x r r' E F]; [congruence|]. intros E0. specialize (Hl x O (or_introl eq_refl) Hk). rewrite E0 in Hl. destruct Hl. }
  assert (EM : forall X : result num, match map Fin l with [] => Err ValueError | _ :: _ => X end = X) by (intros X; destruct l; [congruence|reflexivity]). rewrite EM.
  destruct (nanmax_fin l) as [[E ->]|(m & -> & Hm)].
  - exists (19 / 10). split; auto. split; [lra|]. intros x j Hx Hj. specialize (Hl x j Hx Hj). rewrite E in Hl. destruct Hl.
  - unfold ngt, nlt. destruct (Rltb (19 / 10) m) eqn:G.
    + apply Rltb_true in G. exists m. split; auto. split; [lra|]. auto.
    + apply Rltb_false in G. exists (19 / 10). split; auto. split; [lra|]. intros x j Hx Hj. specialize (Hm _ (Hl x j Hx Hj)). lra.
Qed.
Lemma event_prior_real names k d x zs pe pc : real_event k d x -> increasing zs -> (requested "redshift" names = true -> requested (ed_z_prior d) ["euclidean"; "comoving"] = true) ->
  event_prior names (if requested "redshift" names then Some (map Fin zs, map Fin pe, map Fin pc) else None) d =
  Ok (map (fun j => Fin (sample_prior names (fun z => rinterp z zs (if String.eqb (ed_z_prior d) "euclidean" then pe else pc)) (x "redshift" j) (x "mass_1" j))) (seq 0 k)).
Proof.
  intros E Hi Hv. unfold event_prior. rewrite (row_z _ _ _ E), (row_m _ _ _ E), (n_real _ _ _ E), repeat_seq. cbv zeta. unfold sample_prior; as_model.
  set (P1 := match _ with None => _ | Some _ => _ end). set (py := if String.eqb (ed_z_prior d) "euclidean" then pe else pc).
  assert (E1 : P1 = Ok (map (fun j => Fin (factor (requested "redshift" names) (rinterp (x "redshift" j) zs py))) (seq 0 k))).
  { unfold P1. destruct (requested "redshift" names); [|reflexivity]. rewrite Hv by auto. cbn [negb rbind]. 
    replace (if String.eqb (ed_z_prior d) "euclidean" then map Fin pe else map Fin pc) with (map Fin py) by (unfold py; destruct (String.eqb _ _); auto).
    rewrite map2_map_same. f_equal. apply map_ext. intros j. rewrite ninterp_fin by auto. now rewrite nmul_1_l. }
  rewrite E1. clearbody P1. clear E1. cbn [rbind].
  set (P2 := if requested "mass_1" names then _ else _).
  assert (E2 : P2 = Ok (map (fun j => Fin (factor (requested "redshift" names) (rinterp (x "redshift" j) zs py) * factor (requested "mass_1" names) ((1 + x "redshift" j) ^ 2))) (seq 0 k))).
  { unfold P2. destruct (requested "mass_1" names); cbn [rbind factor].
    - rewrite map2_map_same. f_equal. apply map_ext. intros j. rewrite nadd_fin, npowi_fin, nmul_fin. reflexivity.
    - f_equal. apply map_ext. intros j. now rewrite Rmult_1_r. }
  rewrite E2. clearbody P2. clear E2. cbn [rbind].
  destruct (requested "mass_ratio" names); cbn [rbind factor].
  - rewrite map2_map_same. destruct (requested "a_1" names); cbn [factor]; [rewrite map_map|]; f_equal; apply map_ext; intros j; rewrite ?nmul_fin; f_equal; ring.
  - destruct (requested "a_1" names); cbn [factor]; [rewrite map_map|]; f_equal; apply map_ext; intros j; rewrite ?nmul_fin; f_equal; ring.
Qed.
Definition prior_row (names : list string) (pze pzc : R -> R) (k : nat) (d : event_data) (x : string -> nat -> R) : list num :=
  map (fun j => Fin (sample_prior names (if String.eqb (ed_z_prior d) "euclidean" then pze else pzc) (x "redshift" j) (x "mass_1" j))) (seq 0 k).
Lemma event_rows_real names k evs xs zs pe pc : Forall2 (fun ed x => real_event k (snd ed) x) evs xs -> increasing zs ->
  Forall (fun ed : string * event_data => requested "redshift" names = true -> requested (ed_z_prior (snd ed)) ["euclidean"; "comoving"] = true) evs ->
  event_rows names (if requested "redshift" names then Some (map Fin zs, map Fin pe, map Fin pc) else None) evs =
  Ok (map2 (fun ed x => ed_rows (snd ed) ++ prior_row names (fun z => rinterp z zs pe) (fun z => rinterp z zs pc) k (snd ed) x :: nil) evs xs).
Proof.
  intros F Hi Hv. induction F as [|[ev d] x r r' E F IH]; cbn [event_rows map2]; auto. inversion Hv as [|? ? V1 V2]; subst. cbn [snd] in *.
  rewrite (event_prior_real names k d x) by auto. cbn [rbind]. rewrite IH by auto. cbn [rbind]. unfold prior_row. destruct (String.eqb (ed_z_prior d) "euclidean"); reflexivity.
Qed.
Lemma event_rows_bad names k evs xs zs pe pc : Forall2 (fun ed x => real_event k (snd ed) x) evs xs -> increasing zs -> requested "redshift" names = true ->
  Exists (fun ed : string * event_data => requested (ed_z_prior (snd ed)) ["euclidean"; "comoving"] = false) evs ->
  event_rows names (Some (map Fin zs, map Fin pe, map Fin pc)) evs = Err AssertionError.
Proof.
  intros F Hi Hr Hv. induction F as [|[ev d] x r r' E F IH]; cbn [event_rows]; [inversion Hv|]. cbn [snd] in *.
  destruct (requested (ed_z_prior d) ["euclidean"; "comoving"]) eqn:V.
  - inversion Hv as [? ? B|? ? B]; subst; [cbn [snd] in B; congruence|].
    pose proof (event_prior_real names k d x zs pe pc E Hi (fun _ => V)) as EP. rewrite Hr in EP. rewrite EP. cbn [rbind]. rewrite IH by auto. reflexivity.
  - unfold event_prior. rewrite V. reflexivity.
Qed.
Lemma requested_in p l : requested p l = true <-> In p l.
Proof. unfold requested. rewrite existsb_exists. split; [intros (x & H & E); apply String.eqb_eq in E; now subst|intros H; exists p; split; auto; apply String.eqb_refl]. Qed.
Lemma requested_out p l : requested p l = false <-> ~ In p l.
Proof. rewrite <- requested_in. destruct (requested p l); split; congruence. Qed.
Lemma nth_map2 {A B D} (g : A -> B -> D) l m i a b d : nth_error l i = Some a -> nth_error m i = Some b -> nth i (map2 g l m) d = g a b.
Proof. revert m i. induction l as [|x l IH]; intros [|y m] [|i]; cbn; try discriminate; try congruence. intros. now apply IH. Qed.

(** C80 *)
Theorem append_ok ho om orad ol zm c qs evs k xs names : flat ho om orad ol -> 0 < zm ->
  make_cosmo (Fin ho) (Fin om) (Fin orad) (Fin ol) (Fin zm) (Fin DEFAULT_DZ) = Ok c ->
  evs <> [] -> (0 < k)%nat -> Forall2 (fun ed x => real_event k (snd ed) x) evs xs ->
  Forall (fun ed : string * event_data => In (ed_z_prior (snd ed)) ["euclidean"; "comoving"]) evs ->
  exists a c' zs pe pc pze pzc, append_prior_to_processed_catalog (history c qs (Fin DEFAULT_DZ)) evs names = Ok (a, c') /\
    (increasing zs /\ (2 <= length zs)%nat /\ nth 0 zs 0 = 0 /\ (forall x j, In x xs -> (j < k)%nat -> x "redshift" j <= nth (length zs - 1) zs 0)) /\
    (grid_density zs pe /\ linear_through zs pe pze /\ exists dl c1, z2DL (history c qs (Fin DEFAULT_DZ)) (map Fin zs) (Fin DEFAULT_DZ) = Ok (map Fin dl, c1) /\
       proportional pe (map2 (fun z dl => euclidean_shape z dl (comoving_rate ho om orad z)) zs dl)) /\
    (grid_density zs pc /\ linear_through zs pc pzc /\ exists d c1 c2, z2Dc c1 (map Fin zs) (Fin DEFAULT_DZ) = Ok (map Fin d, c2) /\
       proportional pc (map2 (fun z d => comoving_shape z d (comoving_rate ho om orad z)) zs d)) /\
    pe_events a = keys evs /\ pe_params a = PARAMS ++ "prior" :: nil /\ length (pe_values a) = length evs /\
    forall i ed x, nth_error evs i = Some ed -> nth_error xs i = Some x ->
      nth i (pe_values a) [] = ed_rows (snd ed) ++ (map (fun j => Fin (sample_prior names (if String.eqb (ed_z_prior (snd ed)) "euclidean" then pze else pzc) (x "redshift" j) (x "mass_1" j))) (seq 0 k) :: nil).
Proof.
  intros HF Hzm HC Hne Hk F V. destruct (made _ _ _ _ _ _ _ HF Hdz Hzm HC) as (n0 & Hn0 & ->). destruct (history_step _ _ _ _ HF DEFAULT_DZ Hdz qs n0 Hn0) as (n & Hn & EH).
  rewrite EH. destruct (z_max_real _ _ _ Hne Hk F) as (zmax & EZ & Z1 & Z2).
  destruct (tables_ok ho om orad ol HF n zmax ltac:(lia) Z1) as (dl & d & pe & pc & c1 & c2 & m & ET & GE & GC & EL & ED & PE1 & PC1).
  set (zs := rlinspace 0 (zmax * (101 / 100)) 1000) in *.
  assert (Hinc : increasing zs) by (apply rlinspace_increasing; lra).
  assert (Hlen : length zs = 1000%nat) by apply rlinspace_length.
  assert (Hne' : zs <> []) by (intros E; rewrite E in Hlen; discriminate Hlen).
  pose proof two_thousand as T.
  assert (ER := event_rows_real names k evs xs zs pe pc F Hinc). specialize (ER ltac:(apply Forall_forall; intros ed Hed _; apply requested_in; rewrite Forall_forall in V; auto)).
  exists (PE (keys evs) (PARAMS ++ "prior" :: nil) (map2 (fun ed x => ed_rows (snd ed) ++ prior_row names (fun z => rinterp z zs pe) (fun z => rinterp z zs pc) k (snd ed) x :: nil) evs xs)).
  exists (if requested "redshift" names then table ho om orad ol DEFAULT_DZ m else table ho om orad ol DEFAULT_DZ n), zs, pe, pc, (fun z => rinterp z zs pe), (fun z => rinterp z zs pc).
  split; [|split; [|split; [|split]]].
  - unfold append_prior_to_processed_catalog. destruct evs as [|e0 r0]; [congruence|]. destruct (requested "redshift" names).
    + rewrite EZ. cbn [rbind]. rewrite ET. cbn [rbind]. rewrite ER. cbn [rbind]. reflexivity.
    + cbn [rbind]. rewrite ER. cbn [rbind]. reflexivity.
  - split; auto. split; [rewrite Hlen; auto|]. split.
    + unfold zs. rewrite rlinspace_nth by lia. cbn [INR]. ring.
    + intros x j Hx Hj. rewrite Hlen. unfold zs. rewrite rlinspace_nth by lia. specialize (Z2 x j Hx Hj).
      assert (N : INR (1000 - 1) <> 0) by (apply not_0_INR; lia).
      replace (0 + INR (1000 - 1) * ((zmax * (101 / 100) - 0) / INR (1000 - 1))) with (zmax * (101 / 100)) by (field; auto). lra.
  - split; auto. split; [apply rinterp_linear; auto; apply GE|]. exists dl, c1. auto.
  - split; auto. split; [apply rinterp_linear; auto; apply GC|]. exists d, c1, c2. auto.
  - split; auto. split; auto. split.
    + cbn [pe_values]. rewrite map2_length. assert (FL : length evs = length xs) by (clear - F; induction F; cbn; auto). rewrite <- FL. apply Nat.min_id.
    + intros i ed x H1 H2. cbn [pe_values]. rewrite (nth_map2 _ _ _ _ _ _ _ H1 H2). unfold prior_row. reflexivity.
Qed.
Theorem append_undeclared ho om orad ol zm c qs evs k xs names : flat ho om orad ol -> 0 < zm ->
  make_cosmo (Fin ho) (Fin om) (Fin orad) (Fin ol) (Fin zm) (Fin DEFAULT_DZ) = Ok c ->
  (0 < k)%nat -> Forall2 (fun ed x => real_event k (snd ed) x) evs xs -> In "redshift" names ->
  Exists (fun ed : string * event_data => ~ In (ed_z_prior (snd ed)) ["euclidean"; "comoving"]) evs ->
  append_prior_to_processed_catalog (history c qs (Fin DEFAULT_DZ)) evs names = Err AssertionError.
Proof.
  intros HF Hzm HC Hk F Hr V. assert (Hne : evs <> []) by (intros ->; inversion V). destruct (made _ _ _ _ _ _ _ HF Hdz Hzm HC) as (n0 & Hn0 & ->). destruct (history_step _ _ _ _ HF DEFAULT_DZ Hdz qs n0 Hn0) as (n & Hn & EH).
  rewrite EH. destruct (z_max_real _ _ _ Hne Hk F) as (zmax & EZ & Z1 & Z2).
  destruct (tables_ok ho om orad ol HF n zmax ltac:(lia) Z1) as (dl & d & pe & pc & c1 & c2 & m & ET & _).
  unfold append_prior_to_processed_catalog. destruct evs as [|e0 r0]; [inversion V|]. apply requested_in in Hr. rewrite Hr, EZ. cbn [rbind]. rewrite ET. cbn [rbind].
  assert (HI : increasing (rlinspace 0 (zmax * (101 / 100)) 1000)) by (apply rlinspace_increasing; lra).
  rewrite (event_rows_bad names k (e0 :: r0) xs _ pe pc F HI Hr); [reflexivity|].
  apply Exists_exists in V as (ed & A & B). apply Exists_exists. exists ed. split; auto. now apply requested_out.
Qed.
(** an event without samples *)
Lemma append_empty c evs xs names : evs <> [] -> Forall2 (fun ed x => real_event 0 (snd ed) x) evs xs -> In "redshift" names ->
  append_prior_to_processed_catalog c evs names = Err ValueError.
Proof.
  intros Hne F Hr. unfold append_prior_to_processed_catalog. destruct evs as [|e0 r0]; [congruence|]. apply requested_in in Hr. rewrite Hr. unfold catalog_z_max. rewrite (all_z_real _ _ _ F). cbn [rbind].
  replace (flat_map _ xs) with (@nil R); [reflexivity|]. clear. induction xs; auto.
Qed.
