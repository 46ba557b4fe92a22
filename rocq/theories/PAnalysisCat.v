From Verif Require Import PAnalysisFrac SpecAnalysis.
Open Scope R_scope.
Open Scope string_scope.
Open Scope list_scope.

Lemma mix_ext qs qs' w0 w1 : Forall2 (fun q q' => q = O <-> q' = O) qs qs' -> mix_weights qs w0 w1 = mix_weights qs' w0 w1.
Proof.
  intros F. unfold mix_weights. f_equal. generalize (combine (a_rows w0) (a_rows w1)). induction F as [|q q' l l' H F IH]; intros r; [reflexivity|].
  destruct r as [|x r]; [reflexivity|]. cbn [map2]. rewrite IH. f_equal. destruct q, q'; cbn; auto; exfalso; [assert (X := proj1 H eq_refl); discriminate|assert (X := proj2 H eq_refl); discriminate].
Qed.
Lemma factors_app s t : factors (s ++ t) = factors s ++ factors t.
Proof. unfold factors. apply filter_app. Qed.
Lemma hl_categorical_later a d w0 w1 rest rest' inj qs' : categorical a = true -> Forall2 (fun q q' => q = O <-> q' = O) (d_qs d) qs' ->
  let d' := Draws qs' (d_rate d) (d_obs d) (d_pred d) in
  factors (fst (hierarchical_likelihood a d (PEMany (w0 :: w1 :: rest)) inj)) = factors (fst (hierarchical_likelihood a d' (PEMany (w0 :: w1 :: rest')) inj)) /\
  snd (hierarchical_likelihood a d (PEMany (w0 :: w1 :: rest)) inj) = snd (hierarchical_likelihood a d' (PEMany (w0 :: w1 :: rest')) inj).
Proof.
  intros HC F d'. rewrite !hl_shape. destruct (bad_flags a); [split; reflexivity|].
  unfold event_part. rewrite HC. unfold mbind, tell, lift. change (d_qs d') with qs'. rewrite (mix_ext _ _ w0 w1 F). cbn [app].
  destruct (per_event_log_bayes_factors (logw a) (mix_weights qs' w0 w1)) as [[[B E] V]|e]; [|split; reflexivity].
  destruct (detection_efficiency (logw a) inj (total_inj a)) as [[[lm le] v]|e]; [|split; reflexivity].
  destruct (_ && _)%bool; [split; reflexivity|]. destruct (_ && _)%bool; [split; cbn [fst snd]; rewrite ?factors_app; reflexivity|].
  assert (P : when (posterior_predictive_check a) (ppc a d (PEMany (w0 :: w1 :: rest)) inj) = when (posterior_predictive_check a) (ppc a d' (PEMany (w0 :: w1 :: rest')) inj)).
  { destruct (posterior_predictive_check a); reflexivity. }
  cbn zeta. rewrite P. cbn [fst snd]. split; reflexivity.
Qed.
