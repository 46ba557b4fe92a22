(** Concrete files and catalogs for the examples of PropsPreprocess.v. *)
From Coq Require Import Lia Lra.
From Verif Require Import NumFacts ArrFacts PSelection PCollectEnd.
Open Scope R_scope.
Open Scope string_scope.
Open Scope list_scope.

(** two injections: the first has far 1 and SNR 1, the second far 20 and SNR 20 *)
Definition two (k : string) : string * list num := (k, [Fin 1; Fin 20]).
Definition ex_o4a : o4a_file :=
  O4a [("total_generated", Fin 1000); ("total_analysis_time", Fin 3000)]
      (map two ("far_pycbc" :: snr_column :: "weights" :: "mass1_source" :: "mass2_source" :: "redshift" :: log_density_column :: spin_fields)).
Lemma ex_o4a_good : good_o4a 2 ex_o4a.
Proof.
  split; [split|].
  - cbn. repeat constructor; cbn; intuition discriminate.
  - cbn. repeat constructor.
  - cbn. intros x Hx. cbn in Hx. cbn. tauto.
Qed.
Lemma ex_time (f : dict num) : In "total_analysis_time" (keys f) -> has_time f.
Proof. intros H. exists "total_analysis_time". split; auto. cbn. tauto. Qed.
Lemma ex_o4a_found : found_o4a (o4a_events ex_o4a) (Fin 1) (Fin 10) 0 /\ found_o4a (o4a_events ex_o4a) (Fin 1) (Fin 10) 1.
Proof.
  split.
  - right. exists "far_pycbc". split; [cbn; tauto|]. split; [reflexivity|]. rewrite ndiv_fin by lra. change (cell (o4a_events ex_o4a) "far_pycbc" 0) with (Fin 1). unfold nle. apply Rleb_true. lra.
  - left. change (cell (o4a_events ex_o4a) snr_column 1) with (Fin 20). unfold nle. apply Rleb_true. lra.
Qed.
(** one O3 injection with inverse false-alarm rate [x], unit spins along x, and sampling density p *)
Definition one (v : num) (k : string) : string * list num := (k, v :: nil).
Definition ex_cols (x p : R) : dict (list num) :=
  [one (Fin x) "ifar_pycbc"; one (Fin 30) "mass1_source"; one (Fin 20) "mass2_source"; one (Fin (1 / 5)) "redshift"; one (Fin p) "sampling_pdf";
   one (Fin 1) "spin1x"; one (Fin 0) "spin1y"; one (Fin 0) "spin1z"; one (Fin 1) "spin2x"; one (Fin 0) "spin2y"; one (Fin 0) "spin2z"].
Definition ex_o3 (x p : R) : o3_file := O3 (ex_cols x p) None (("total_generated", Fin 500) :: nil) (("analysis_time_s", Fin 3000) :: nil).
Lemma ex_o3_good x p : good_o3 1 (ex_o3 x p).
Proof.
  split; [split|split].
  - cbn. repeat constructor; cbn; intuition discriminate.
  - cbn. repeat constructor.
  - cbn. intros k Hk. cbn in Hk. cbn. tauto.
  - exact I.
Qed.
Lemma ex_o3_found x p : 1 < x -> found_o3 (ex_o3 x p) (Fin 1) (Fin 10) 0.
Proof. intros H. left. exists "ifar_pycbc". split; [cbn; tauto|]. split; [reflexivity|]. change (cell _ _ _) with (Fin x). unfold nlt. apply Rltb_t. lra. Qed.
Lemma ex_o3_lost x p snr : x <= 1 -> ~ found_o3 (ex_o3 x p) (Fin 1) snr 0.
Proof.
  intros H [(k & A & B & D)|(nm & A & _)]; [|discriminate A].
  cbn in A. destruct A as [<-|A].
  - change (cell (o3_cols (ex_o3 x p)) "ifar_pycbc" 0) with (Fin x) in D. unfold nlt in D. rewrite Rltb_f in D by lra. discriminate.
  - repeat (destruct A as [<-|A]; [discriminate B|]). destruct A.
Qed.
Lemma ex_o3_reads names x p cuts : good_cuts (ex_o3 x p) cuts ->
  reads names (Fin 1) (Fin 10) (FileO3 (ex_o3 x p)) false cuts 1 (ex_cols x p) (o3_density (ex_o3 x p)) (Fin 500) (fun j => found_o3 (ex_o3 x p) (Fin 1) (Fin 10) j \/ passes_cut (ex_o3 x p) cuts j).
Proof.
  intros Hc. apply (reads_o3 names (Fin 1) (Fin 10) 1 (ex_o3 x p) (Fin 500) cuts).
  - apply ex_o3_good.
  - exact Hc.
  - intros _ k Hk. cbn in Hk. cbn. tauto.
  - reflexivity.
  - exists "analysis_time_s". cbn. tauto.
Qed.
Lemma ex_o4a_reads names cuts : reads names (Fin 1) (Fin 10) (FileO4a ex_o4a) true cuts 2 (o4a_events ex_o4a) (o4a_density ex_o4a) (Fin 1000) (found_o4a (o4a_events ex_o4a) (Fin 1) (Fin 10)).
Proof.
  apply reads_o4a.
  - apply ex_o4a_good.
  - unfold neqb. apply Reqb_false. lra.
  - reflexivity.
  - apply ex_time. cbn. tauto.
Qed.
Lemma selects_single (P : nat -> Prop) sel : selects 1 P sel -> P O -> sel = O :: nil.
Proof.
  intros [S H] HP. assert (I : In O sel) by (apply H; auto).
  destruct sel as [|a r]; [destruct I|]. assert (a = O) by (destruct (proj1 (H a) (or_introl eq_refl)); lia). subst a.
  destruct r as [|b r]; auto. exfalso. assert (b = O) by (destruct (proj1 (H b) (or_intror (or_introl eq_refl))); lia). subst b.
  inversion S as [|? ? _ F]. subst. inversion F. lia.
Qed.
Lemma selects_empty n (P : nat -> Prop) sel : selects n P sel -> (forall j, (j < n)%nat -> ~ P j) -> sel = [].
Proof. intros [_ H] N. destruct sel as [|a r]; auto. exfalso. destruct (proj1 (H a) (or_introl eq_refl)). eapply N; eauto. Qed.
