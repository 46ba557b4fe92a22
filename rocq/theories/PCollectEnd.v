(** The injection loader on whole files (preprocess/data_collection.py:172-200 over selection.py). *)
From Coq Require Import Lia Lra.
From Verif Require Import PConstruct PUtils NumFacts ArrFacts PSelection.
From Verif Require Export PCollectChi.
Open Scope R_scope.
Open Scope string_scope.
Open Scope list_scope.


Lemma reads_columns names ifar snr file o4a cuts n t dens total P : reads names ifar snr file o4a cuts n t dens total P ->
  exists sel a, read_injections file names o4a true ifar snr cuts = Ok a /\ selects n P sel /\ ij_total a = total /\ injection_columns t names (requested_prior t names dens) sel (ij_params a).
Proof.
  intros H. destruct H as [n f total cuts G N T Tm|n f total cuts G Gc S T Tm]; unfold read_injections.
  - apply (o4a_reads n f names ifar snr total G N T Tm).
  - apply (o3_reads n f names ifar snr cuts total G Gc S T Tm).
Qed.
Theorem end_plain w names ifar snr file o4a cuts n t dens total P : reads names ifar snr file o4a cuts n t dens total P ->
  ~ In "chi_eff" names -> incl names (available names) ->
  exists sel a, load_injection_dataset w (read_injections file names o4a true ifar snr cuts) names = Ok a /\
    selects n P sel /\ ij_total a = total /\ plain_columns t names (requested_prior t names dens) sel (ij_params a).
Proof.
  intros H Nc Hi. destruct (reads_columns _ _ _ _ _ _ _ _ _ _ _ H) as (sel & a & E & S & T & K). rewrite E.
  destruct (columns_plain w _ _ _ _ _ K Nc Hi) as (a' & E' & T' & _ & PC). exists sel, a'. split; auto. split; auto. split; auto. congruence.
Qed.
Theorem end_effective w names ifar snr file o4a cuts n t dens total P : reads names ifar snr file o4a cuts n t dens total P ->
  In "chi_eff" names -> (forall j, (j < n)%nat -> P j -> exists p, converted_prior w (requested "chi_p" names) (injection_spins t (requested_prior t names dens) j) p) ->
  exists sel a, load_injection_dataset w (read_injections file names o4a true ifar snr cuts) names = Ok a /\
    selects n P sel /\ ij_total a = total /\ effective_columns w t names (requested_prior t names dens) sel (ij_params a).
Proof.
  intros H Hc HP. destruct (reads_columns _ _ _ _ _ _ _ _ _ _ _ H) as (sel & a & E & S & T & K). rewrite E.
  destruct (columns_effective w _ _ _ _ _ K Hc) as (a' & E' & T' & _ & PC). { intros j Hj. apply S in Hj. apply HP; apply Hj. }
  exists sel, a'. split; auto. split; auto. split; auto. congruence.
Qed.
Theorem end_isotropic w names ifar snr file o4a cuts n t dens total P : reads names ifar snr file o4a cuts n t dens total P ->
  In "chi_eff" names -> ~ In "chi_p" names -> (forall chi q, exists x, pchi w chi q = Ok x) ->
  exists sel a priors, load_injection_dataset w (read_injections file names o4a true ifar snr cuts) names = Ok a /\
    selects n P sel /\ assoc "prior" (ij_params a) = Ok priors /\
    forall i j p a1 a2 m1 x, nth_error sel i = Some j -> injection_value t "a_1" j = Fin a1 -> injection_value t "a_2" j = Fin a2 -> 0 < a1 -> 0 < a2 ->
      injection_value t "mass_1" j = Fin m1 -> dens j = Fin (p * isotropic_density a1 a2) ->
      pchi w (row_chi (injection_spins t (requested_prior t names dens) j)) (injection_value t "mass_ratio" j) = Ok (Fin x) ->
      let intended := p * factor (requested "mass_ratio" names) m1 * x in
      nth_error priors i = Some (Fin (intended * isotropic_density a1 a2)) /\
      (intended <> 0 -> (intended * isotropic_density a1 a2 = intended <-> sphere a1 * sphere a2 = 1)).
Proof.
  intros H Hc Np Hx. destruct (end_effective w _ _ _ _ _ _ _ _ _ _ _ H Hc) as (sel & a & E & S & T & K).
  { intros j _ _. assert (Np' := Np). apply req_out in Np'. rewrite Np'. destruct (Hx (row_chi (injection_spins t (requested_prior t names dens) j)) (sr_q (injection_spins t (requested_prior t names dens) j))) as [x Ex].
    eexists. exists x. split; [exact Ex|reflexivity]. }
  destruct (effective_isotropic _ _ _ _ _ _ K Hc Np) as (ps & E' & F). exists sel, a, ps. auto.
Qed.
(** a request for a parameter that the reader did not prepare *)
Theorem end_missing w names ifar snr file o4a cuts n t dens total P k : reads names ifar snr file o4a cuts n t dens total P ->
  ~ In "chi_eff" names -> ~ In "prior" names -> In k names -> ~ In k (available names) ->
  load_injection_dataset w (read_injections file names o4a true ifar snr cuts) names = Err KeyError.
Proof.
  intros H Nc Np Hk Na. destruct (reads_columns _ _ _ _ _ _ _ _ _ _ _ H) as (sel & a & E & S & T & K). rewrite E.
  pose proof (columns_keys _ _ _ _ _ K) as KK. assert (W : wants_spins names = requested "a_1" names) by (unfold wants_spins; apply req_out in Nc; rewrite Nc; apply orb_false_r).
  apply (load_missing w a names k); auto.
  - apply (proj1 (columns_table _ _ _ _ _ K)).
  - rewrite KK; cbn; tauto.
  - rewrite KK, W. intros X. apply Na. unfold available; as_model. destruct (requested "a_1" names); cbn in *; intuition (subst; tauto).
Qed.
Theorem end_monotone names ifar ifar' snr snr' file o4a cuts n n' t t' dens dens' total total' P P' :
  reads names ifar snr file o4a cuts n t dens total P -> reads names ifar' snr' file o4a cuts n' t' dens' total' P' ->
  (exists x x', ifar = Fin x /\ ifar' = Fin x' /\ 0 < x' <= x) -> nle snr' snr = true -> n = n' ->
  exists sel sel' a a', read_injections file names o4a true ifar snr cuts = Ok a /\ read_injections file names o4a true ifar' snr' cuts = Ok a' /\
    selects n P sel /\ selects n P' sel' /\ incl sel sel' /\ ij_total a' = ij_total a.
Proof.
  intros H H' (x & x' & -> & -> & Hx) Hs <-. destruct (reads_columns _ _ _ _ _ _ _ _ _ _ _ H) as (sel & a & E & S & T & K). destruct (reads_columns _ _ _ _ _ _ _ _ _ _ _ H') as (sel' & a' & E' & S' & T' & K').
  exists sel, sel', a, a'. split; auto. split; auto. split; auto. split; auto. split.
  - eapply selects_incl; [|exact S|exact S']. clear - H H' Hx Hs. destruct H; inversion H'; subst.
    + intros j. apply o4a_monotone; lra || auto.
    + intros j [A|A]; [left|right; auto]. eapply o3_monotone; [| |exact A]; auto. unfold nle. apply Rleb_true. lra.
  - rewrite T, T'. clear - H H'. destruct H; inversion H'; congruence.
Qed.
