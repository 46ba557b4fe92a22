(** Property theorem C108: saving, loading, and the chain from catalog and injections to the data of the likelihood. *)
From Coq Require Import Lra Lia.
From Verif Require Import PStore PCollectCut NumFacts.
From Verif Require Import SpecStore Spec.
Open Scope R_scope.
Open Scope string_scope.
Open Scope list_scope.

(** what is loaded is what was last saved under that name, in every history of saves *)
Theorem C108_saved_is_loaded : forall fs before after name a i ignore, h5_name name -> complete a i -> (forall s, In s after -> fst s <> name) ->
  exists r, load_file (after_saves fs (before ++ (name, (a, i)) :: after)) name ignore = Ok r /\ returned a i ignore r.
Proof. exact saved_last. Qed.
Print Assumptions C108_saved_is_loaded.
Theorem C108_name_refused : forall fs name a i, ~ h5_name name -> save_posterior_samples_and_injection_datasets_as_idata fs name a i = Err AssertionError.
Proof. exact save_refused. Qed.
Print Assumptions C108_name_refused.
Theorem C108_other_files_kept : forall fs ss name ignore, (forall s, In s ss -> fst s <> name) \/ ~ h5_name name -> load_file (after_saves fs ss) name ignore = load_file fs name ignore.
Proof. exact never_saved. Qed.
Print Assumptions C108_other_files_kept.
(** from the posterior files and the injection file to the arrays of the likelihood, whatever was asked of the shared cosmology before *)
Theorem C108_catalog_to_likelihood_data : forall ho om orad ol zm c, flat ho om orad ol -> 0 < zm ->
  make_cosmo (Fin ho) (Fin om) (Fin orad) (Fin ol) (Fin zm) (Fin DEFAULT_DZ) = Ok c -> forall qs,
  let c1 := history c qs (Fin DEFAULT_DZ) in
  forall h5 read choice w mmax meta kf cat names fs filename file o4a cuts ifar snr n t dens total P,
  Forall2 (stored h5) meta cat -> cat <> [] -> Forall (fun ke : string * event_post => usable c mmax (snd ke)) cat -> is_sampling choice ->
  reads names ifar snr file o4a cuts n t dens total P -> ~ In "chi_eff" names -> incl names (available names) -> h5_name filename ->
  exists a c2 i fs' pe inj ps time,
    load_posterior_dataset h5 read choice w c1 mmax (Some meta) kf names = Ok (a, c2) /\
    load_injection_dataset w (read_injections file names o4a true ifar snr cuts) names = Ok i /\
    save_posterior_samples_and_injection_datasets_as_idata fs filename a i = Ok fs' /\
    load_file fs' filename None = Ok (pe, inj, Constants total time (length cat), ps) /\
    (forall p, In p ps <-> In p names \/ p = "prior") /\ keys pe = ps /\ (forall p rows, assoc p pe = Ok rows -> length rows = length cat) /\
    (exists sel, selects n P sel /\ plain_columns t names (requested_prior t names dens) sel inj) /\
    exists size zs pze pzc, (1 <= size <= 10000)%nat /\ increasing zs /\ nth 0 zs 0 = 0 /\ euclidean_prior ho om orad c1 zs pze /\ comoving_prior ho om orad zs pzc /\
      forall k ev e, nth_error cat k = Some (ev, e) -> event_data_is c names mmax (fun zp => if String.eqb zp "euclidean" then pze else pzc) size pe k e.
Proof. exact whole_chain. Qed.
Print Assumptions C108_catalog_to_likelihood_data.
(** one event with nothing below the mass cut makes the whole catalog unusable *)
Theorem C108_lost_event : forall h5 read choice w c mmax meta kf cat names ev e, Forall2 (stored h5) meta cat -> good_catalog cat -> Forall (fun ke : string * event_post => ~ is_gwtc1 (snd ke)) cat ->
  is_sampling choice -> In "redshift" names -> In (ev, e) cat -> (forall n j, good_event n e -> (j < n)%nat -> ~ survives mmax e n j) ->
  load_posterior_dataset h5 read choice w c mmax (Some meta) kf names = Err ValueError.
Proof. exact event_lost. Qed.
Print Assumptions C108_lost_event.
(** the metadata may come from a file; given both, the argument is used and the file is not read *)
Theorem C108_metadata_file : forall h5 read read' choice w c mmax meta path kf names,
  (read path = Ok meta -> load_posterior_dataset h5 read choice w c mmax None (Some path) names = load_posterior_dataset h5 read' choice w c mmax (Some meta) kf names) /\
  (forall e, read path = Err e -> load_posterior_dataset h5 read choice w c mmax None (Some path) names = Err e).
Proof. intros. unfold load_posterior_dataset. split; [intros ->|intros e ->]; reflexivity. Qed.
Print Assumptions C108_metadata_file.
(** without either, the message that one must be specified is never raised *)
Theorem C108_no_metadata_refuted : forall h5 read choice w c mmax names, load_posterior_dataset h5 read choice w c mmax None None names = Err TypeError.
Proof. reflexivity. Qed.
Print Assumptions C108_no_metadata_refuted.
Definition C108_events : dict event_post := [("GW1", flat_event [50; 100; 101]); ("GW2", flat_event [1; 2])].
Definition C108_h5 (path : string) (ks : list string) : result (dict (list num)) :=
  match ks with [k; "posterior_samples"] => if String.eqb path "GW1.h5" then Ok (ep_samples (flat_event [50; 100; 101])) else Ok (ep_samples (flat_event [1; 2])) | _ => Err KeyError end.
Definition C108_gwtc1 (d : R) : event_post := Post (map (fun k => (k, [Fin d; Fin d])) gwtc1_fields) "comoving" "GWTC-1".
Example C108_case : h5_name "catalog.h5" /\ h5_name "a.h5.bak" /\ ~ h5_name "catalog.nc" /\
  Forall2 (stored C108_h5) [("GW1", Meta "GW1.h5" "wf" "euclidean" "GWTC-2"); ("GW2", Meta "GW2.h5" "wf" "euclidean" "GWTC-2")] C108_events /\
  (forall c, Forall (fun ke : string * event_post => usable c (Fin 100) (snd ke)) C108_events) /\ is_sampling first_ones /\
  (forall n j, good_event n (flat_event [101; 150]) -> (j < n)%nat -> ~ survives (Fin 100) (flat_event [101; 150]) n j) /\
  (forall ho om orad ol zm c, flat ho om orad ol -> 0 < zm -> make_cosmo (Fin ho) (Fin om) (Fin orad) (Fin ol) (Fin zm) (Fin DEFAULT_DZ) = Ok c ->
     forall w b, table_end c w b -> 0 < b -> usable c (Fin 100) (C108_gwtc1 b)).
Proof.
  split; [now exists "catalog", ""|]. split; [now exists "a", ".bak"|]. split; [apply index_none; reflexivity|]. split.
  { repeat constructor; cbn; discriminate. }
  split.
  { intros c. unfold C108_events. apply Forall_cons; [|apply Forall_cons; [|exact (Forall_nil _)]]; cbn [snd]; (split; [cbn; tauto|]);
      (eexists; split; [apply flat_good|]; split; [exists O; split; [cbn; lia|right; left; cbn; apply Rltb_t; lra]|]; split; [discriminate|]);
      intros _ p j Hp Hj; cbn [parameter_order In] in Hp; cbn [length] in Hj; decompose [or] Hp; try contradiction; subst p; do 3 (destruct j as [|j]; [first [lia|eexists; reflexivity]|]); lia. }
  split; [apply first_ones_ok|]. split.
  { intros n j G Hj. assert (n = 2)%nat as -> by (apply (event_size n 2 (flat_event [101; 150]) G), (flat_good [101; 150])). intros [S|[S|S]].
    - discriminate S.
    - do 2 (destruct j as [|j]; [cbn in S; apply Rltb_true in S; lra|]). lia.
    - specialize (S O ltac:(lia)). cbn in S. rewrite Rltb_t in S by lra. discriminate S. }
  intros ho om orad ol zm c _ _ _ w b E Hb. split; [cbn; tauto|]. exists 2%nat. split; [|split; [|split]].
  - split; [split; [cbn; repeat constructor; cbn; intuition discriminate|cbn; repeat constructor]|]. split; [intros _ k; cbn; tauto|intros N; destruct N; reflexivity].
  - exists O. split; [lia|]. now left.
  - intros _. split; [intros k j Hk Hj; cbn [gwtc1_fields In] in Hk; decompose [or] Hk; try contradiction; subst k; do 2 (destruct j as [|j]; [eexists; reflexivity|]); lia|].
    exists w, b. split; auto. intros j Hj. exists b, b. do 2 (destruct j as [|j]; [repeat split; auto; lra|]). lia.
  - intros N. destruct N. reflexivity.
Qed.
