(** Model sharing in the configuration reader. *)
From Verif Require Export PConstruct PParser SpecShare.
Open Scope string_scope.
Open Scope list_scope.

Tactic Notation "dobind" hyp(H) ident(x) ident(E) := match type of H with rbind ?m _ = Ok _ => destruct m as [x|] eqn:E; cbn [rbind] in H; [|discriminate] end.

Section Share.
Context {C : Type} (import : string -> string -> result C).

Definition put (k : string) (e : model_entry C) (t : option string) (d : list (string * model_entry C)) : list (string * model_entry C) :=
  match t with Some s => dset s (EIid k) (dset k e d) | None => dset k e d end.

Lemma add_iid_exact param part (r r' : reader C) : (exists v, yget "model" part = Ok v) -> add_iid param part r = Ok r' ->
  r_models r' = match (if mem "iid" (entries part) then match sub "shared_parameter" (sub "iid" part) with YStr s => Some s | _ => None end else None) with
                | Some s => dset s (EIid param) (r_models r) | None => r_models r end.
Proof.
  intros [v Hm] H. apply yget_sub in Hm. destruct Hm as [_ [d ->]]. unfold add_iid in H. cbn [yin rbind] in H. cbn [entries].
  destruct (mem "iid" d) eqn:E; [|injection H as <-; reflexivity].
  dobind H i E1. dobind H s E2. dobind H s' E3. apply yget_map in E1. apply yget_map in E2. apply ystr_ok in E3. injection H as <-.
  rewrite E1, E2, E3. reflexivity.
Qed.

Lemma add_param_exact param subd b r r' : wf subd -> is_mixture subd = Ok b ->
  (if b then add_mixture_model import param subd r else add_model import param subd r) = Ok r' ->
  exists e, model_entry_for import subd e /\ r_models r' = put param e (shared_with subd) (r_models r).
Proof.
  intros W Hb H.
  assert (Hn : exists name, sub "model" subd = YStr name).
  { destruct b; [unfold add_mixture_model in H | unfold add_model in H]; dobind H m E1; dobind H name E2; apply yget_map in E1; apply ystr_ok in E2; exists name; congruence. }
  apply is_mixture_ok in Hb; [|exact Hn]. unfold shared_with, sharing_part. rewrite Hb. destruct b.
  - unfold add_mixture_model in H. dobind H m E1. dobind H name E2. dobind H c E3. dobind H md E4. dobind H mm E5.
    dobind H mname E6. dobind H mc E7. dobind H mhp E8. dobind H mps E9. dobind H N E10. dobind H r1 E11. dobind H res E12.
    destruct res as [[r2 cs] ps].
    apply yget_map in E1. apply ystr_ok in E2. apply yget_map in E4. apply yget_map in E5. apply ystr_ok in E6. apply yget_map in E8.
    assert (Wmd : wf mhp) by (rewrite <- E8; apply wf_sub; rewrite <- E4; now apply wf_sub).
    apply add_priors_rec in E11; [|exact Wmd | exact E9]. destruct E11 as [M1 [S1 K1]].
    apply add_components_spec in E12; [|exact W]. destruct E12 as [M2 [S2 [F2 [K2 G2]]]].
    assert (HN : n_components subd = N).
    { unfold n_components. rewrite E4, E8. destruct mps as [|p mps]; [discriminate|].
      destruct (entries mhp) as [|[p' first] tl] eqn:En; [discriminate|]. cbn in K1. injection K1 as -> _.
      dobind E10 x X1. dobind E10 y X2. dobind E10 z X3. apply yget_map in X1. apply yget_map in X2. apply yget_map in X3.
      destruct mhp as [| | | | |d]; try discriminate. cbn in En. subst d. cbn in X1. rewrite String.eqb_refl in X1. subst first.
      rewrite X2, X3, E10. reflexivity. }
    destruct N as [|N]; [discriminate|]. dobind H lastc E13. apply yget_map in E13.
    exists (EMixture c mc mps cs ps). split.
    + exists name, c. rewrite Hb, E1, E2. repeat split; auto. cbv zeta. rewrite E4, HN, E8. exists mname, mc, cs.
      rewrite E5, E6. repeat split; auto. now rewrite K2, K1.
    + rewrite HN, E13. apply add_iid_exact in H.
      * rewrite H. cbn [set_model r_models]. rewrite M2, M1. reflexivity.
      * rewrite Forall_forall in G2. destruct (G2 (S N)) as [v Hv]; [apply in_seq; lia|]. rewrite E13 in Hv. eauto.
  - unfold add_model in H. dobind H m E1. dobind H name E2. dobind H c E3. dobind H hp E4. dobind H hps E5. dobind H r1 E6.
    pose proof (ex_intro (fun v => yget "model" subd = Ok v) m E1) as HM.
    apply yget_map in E1. apply ystr_ok in E2. pose proof (yget_map _ _ _ E4) as E4'.
    apply add_priors_rec in E6; [|rewrite <- E4'; now apply wf_sub | exact E5]. destruct E6 as [M1 [S1 K1]].
    exists (ESimple c hps). split.
    + exists name, c. rewrite Hb, E1, E2, E4'. repeat split; auto. now rewrite K1.
    + apply add_iid_exact in H; auto. rewrite H, M1. reflexivity.
Qed.

Inductive filled : list (string * yaml) -> list (string * model_entry C) -> list (string * model_entry C) -> Prop :=
  | filled_nil d : filled [] d d
  | filled_cons k subd e l d d' : model_entry_for import subd e -> filled l (put k e (shared_with subd) d) d' -> filled ((k, subd) :: l) d d'.

Lemma add_params_filled d d' r r' : wf (YMap d) -> incl d' d -> add_params import (YMap d) (map fst d') r = Ok r' -> filled d' (r_models r) (r_models r').
Proof.
  intros W. revert r. induction d' as [|[k v] d' IH]; intros r I H; cbn [map add_params fst] in H; [injection H as <-; constructor|].
  assert (Hin : In (k, v) d) by (apply I; now left).
  cbn [yget] in H. rewrite (in_assoc k v d (wf_nodup _ W) Hin) in H. cbn [rbind] in H.
  dobind H b E1. dobind H r1 E2. apply add_param_exact in E2; [|eapply (wf_entry (YMap d)); eauto | exact E1].
  destruct E2 as [e [He Hm]]. econstructor; eauto. rewrite <- Hm. apply IH; [|exact H]. intros x Hx; apply I; now right.
Qed.
Lemma construct_filled yml r r' : wf yml -> ~ has "python_file" yml -> construct_model_and_prior_dicts import yml r = Ok r' -> filled (entries yml) (r_models r) (r_models r').
Proof.
  intros W N H. unfold construct_model_and_prior_dicts in H. dobind H b E1. destruct b.
  - exfalso. dobind H f E2. apply yget_sub in E2. destruct E2 as [_ [d ->]]. cbn in E1. injection E1 as E1. apply mem_keys in E1. now apply N.
  - dobind H ps E2. destruct yml as [| | |s|l|d]; try discriminate; cbn [entries].
    + cbn in E2. injection E2 as <-. destruct s; cbn in H; [injection H as <-; constructor | discriminate].
    + destruct ps; cbn in H; [injection H as <-; constructor | discriminate].
    + cbn in E2. injection E2 as <-. eapply add_params_filled; [exact W | apply incl_refl | exact H].
Qed.

Lemma put_other k e t d k' : k' <> k -> (forall s, t = Some s -> k' <> s) -> assoc k' (put k e t d) = assoc k' d.
Proof. intros N1 N2. destruct t as [s|]; cbn [put]; rewrite ?assoc_dset_other; auto. Qed.
Lemma filled_other l d d' k : filled l d d' -> ~ In k (flat_map modelled_by l) -> assoc k d' = assoc k d.
Proof.
  induction 1 as [|k0 subd e l d d' He F IH]; intros N; [reflexivity|]. cbn [flat_map] in N. rewrite in_app_iff in N.
  rewrite IH by tauto. apply put_other.
  - intros ->. apply N. left. now left.
  - intros s Hs ->. apply N. left. right. cbn [snd]. rewrite Hs. now left.
Qed.

Lemma filled_lookup l d d' : filled l d d' -> forall l1 k subd l2, l = l1 ++ (k, subd) :: l2 ->
  (~ In k (flat_map modelled_by l2) -> shared_with subd <> Some k -> exists e, assoc k d' = Ok e /\ model_entry_for import subd e) /\
  (forall s, shared_with subd = Some s -> ~ In s (flat_map modelled_by l2) -> assoc s d' = Ok (EIid k)).
Proof.
  induction 1 as [d|k0 subd0 e0 l d d' He F IH]; intros l1 k subd l2 EQ; [destruct l1; discriminate|].
  destruct l1 as [|p l1]; cbn [app] in EQ; [|injection EQ as _ E2; now apply (IH l1 k subd l2)].
  injection EQ as -> -> ->. split.
  - intros N NS. exists e0. split; auto. rewrite (filled_other _ _ _ _ F N). destruct (shared_with subd) as [s|] eqn:ES; cbn [put].
    + rewrite assoc_dset_other by congruence. apply assoc_dset_same.
    + apply assoc_dset_same.
  - intros s ES N. rewrite (filled_other _ _ _ _ F N), ES. cbn [put]. apply assoc_dset_same.
Qed.

Lemma reader_shared yml r r' l1 param subd l2 : wf yml -> ~ has "python_file" yml -> construct_model_and_prior_dicts import yml r = Ok r' ->
  entries yml = l1 ++ (param, subd) :: l2 ->
  (~ In param (flat_map modelled_by l2) -> shared_with subd <> Some param ->
     exists e, assoc param (r_models r') = Ok e /\ model_entry_for import subd e) /\
  (forall s, shared_with subd = Some s -> ~ In s (flat_map modelled_by l2) -> assoc s (r_models r') = Ok (EIid param)).
Proof. intros W N H EQ. exact (filled_lookup _ _ _ (construct_filled _ _ _ W N H) l1 param subd l2 EQ). Qed.
Lemma reader_others yml r r' k : wf yml -> ~ has "python_file" yml -> construct_model_and_prior_dicts import yml r = Ok r' ->
  ~ In k (flat_map modelled_by (entries yml)) -> assoc k (r_models r') = assoc k (r_models r).
Proof. intros W N H. exact (filled_other _ _ _ k (construct_filled _ _ _ W N H)). Qed.
End Share.
