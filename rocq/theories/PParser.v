(** Proofs about the configuration reader. *)
From Coq Require Import Lia.
From Verif Require Export SpecParser.
From Verif Require Import PConstruct PAnalysisNames.
Open Scope R_scope.
Open Scope string_scope.
Open Scope list_scope.

Lemma wf_sub k y : wf y -> wf (sub k y).
Proof.
  destruct y as [| | | | |d]; cbn; auto. intros [_ H]. induction d as [|[k' v] d IH]; cbn in *; [exact I|].
  destruct H as [H1 H2]. destruct (String.eqb k k'); auto.
Qed.
Lemma wf_nodup y : wf y -> NoDup (map fst (entries y)).
Proof. destruct y; cbn; try constructor. intros [H _]; exact H. Qed.
Lemma yget_sub k y v : yget k y = Ok v -> sub k y = v /\ exists d, y = YMap d.
Proof. destruct y; cbn; try discriminate. intros ->. eauto. Qed.
Lemma yget_map k y v : yget k y = Ok v -> sub k y = v. Proof. intros H; now apply yget_sub in H. Qed.
Lemma wf_entry y k v : wf y -> In (k, v) (entries y) -> wf v.
Proof.
  destruct y as [| | | | |d]; cbn; try easy. intros [_ H]. induction d as [|[k' v'] d IH]; cbn in *; [easy|].
  destruct H. intros [[= -> ->]|]; auto.
Qed.

Section Reader.
Context {C : Type} (import : string -> string -> result C).

(** what one declaration does to the priors and to the list of sampled names *)
Definition stepp (kv : string * yaml) (pr : dict (prior_entry C)) (sm : list string) (pr' : dict (prior_entry C)) (sm' : list string) : Prop :=
  if has_prior (snd kv) then exists e, prior_entry_for import (snd kv) e /\ pr' = dset (fst kv) e pr /\ sm' = sm ++ fst kv :: nil
  else if has_value (snd kv) then exists e, prior_entry_for import (snd kv) e /\ pr' = dset (fst kv) e pr /\ sm' = sm
  else pr' = pr /\ sm' = sm.
Inductive rec : list (string * yaml) -> dict (prior_entry C) -> list string -> dict (prior_entry C) -> list string -> Prop :=
  | rec_nil pr sm : rec [] pr sm pr sm
  | rec_cons kv ds pr sm pr1 sm1 pr2 sm2 : stepp kv pr sm pr1 sm1 -> rec ds pr1 sm1 pr2 sm2 -> rec (kv :: ds) pr sm pr2 sm2.
Lemma rec_app ds1 ds2 pr sm pr1 sm1 pr2 sm2 : rec ds1 pr sm pr1 sm1 -> rec ds2 pr1 sm1 pr2 sm2 -> rec (ds1 ++ ds2) pr sm pr2 sm2.
Proof. induction 1; intros; cbn; [assumption|]. econstructor; eauto. Qed.
(** between two readers *)
Definition recr (ds : list (string * yaml)) (r r' : reader C) : Prop := rec ds (r_priors r) (r_sampling r) (r_priors r') (r_sampling r').

Lemma yshape_has : forall y s, yshape y = Some s -> has_shape y s.
Proof.
  fix F 1. intros [ |b|x|t|l|d] s H; try discriminate H.
  - injection H as <-. constructor.
  - injection H as <-. constructor.
  - assert (FA : forall z, In z l -> forall s, yshape z = Some s -> has_shape z s).
    { clear H. induction l as [|y l IH]; [intros z []|]. intros z [<-|Hz]; [apply F|apply IH; exact Hz]. }
    clear F. destruct l as [|y r]; [injection H as <-; constructor|]. cbn [yshape map] in H. destruct (yshape y) as [s0|] eqn:E0; [|discriminate].
    destruct (forallb _ (map yshape r)) eqn:EF; [|discriminate]. injection H as <-. rewrite forallb_forall in EF. constructor. constructor; [apply FA; auto; left; auto|].
    apply Forall_forall. intros z Hz. apply FA; [right; auto|]. specialize (EF (yshape z) (in_map _ _ _ Hz)). destruct (yshape z) as [s'|]; [|discriminate]. unfold shape_eqb in EF. destruct (list_eq_dec Nat.eq_dec s0 s'); congruence.
Qed.
Lemma has_yshape y s : has_shape y s -> yshape y = Some s.
Proof.
  revert y s. fix F 3. intros y s H. destruct H as [x|b| |y r s FA]; try reflexivity.
  assert (G : forall z, In z (y :: r) -> yshape z = Some s).
  { induction FA as [|z l Hz FA' IH]; [intros ? []|]. intros z' [<-|Hz']; [apply F; exact Hz|apply IH; exact Hz']. }
  cbn [yshape map]. rewrite (G y (or_introl eq_refl)).
  assert (EF : forallb (fun o => match o with Some s' => shape_eqb s s' | None => false end) (map yshape r) = true).
  { apply forallb_forall. intros o Ho. apply in_map_iff in Ho as (z & <- & Hz). rewrite (G z (or_intror Hz)). unfold shape_eqb. destruct (list_eq_dec Nat.eq_dec s s); congruence. }
  rewrite EF. reflexivity.
Qed.
Lemma to_pval_converted y v : to_pval y = Ok v -> converted y v.
Proof. unfold to_pval, converted. destruct y; try (intros [= <-]; reflexivity). destruct (yshape _) eqn:E; [|discriminate]. intros [= <-]. split; auto. eexists. apply yshape_has. exact E. Qed.
Lemma conv_params_ok d ps : conv_params d = Ok ps -> Forall2 (fun kv kp => fst kv = fst kp /\ converted (snd kv) (snd kp)) d ps.
Proof.
  revert ps; induction d as [|[k y] d IH]; cbn; intros ps H; [injection H as <-; constructor|].
  destruct (to_pval y) as [v|] eqn:E; cbn [rbind] in H; [|discriminate].
  destruct (conv_params d) as [r|]; cbn [rbind] in H; [|discriminate]. injection H as <-. constructor; auto.
  cbn. split; [reflexivity | now apply to_pval_converted].
Qed.
Lemma sub_mem k d : mem k d = true -> assoc k d = Ok (sub k (YMap d)).
Proof. intros H. apply mem_keys, assoc_keys in H. destruct H as [v H]. cbn. now rewrite H. Qed.

Lemma add_prior_step key subd r r' : add_prior import key subd r = Ok r' ->
  r_models r' = r_models r /\ stepp (key, subd) (r_priors r) (r_sampling r) (r_priors r') (r_sampling r').
Proof.
  unfold add_prior, stepp, has_value, has_prior. cbn [fst snd].
  destruct subd as [| | |str|l|d]; cbn [entries yin rbind mem andb negb]; try discriminate.
  - destruct (contains "prior" str); [destruct (contains "prior_params" str)|]; cbn [rbind yget]; try discriminate;
      (destruct (contains "value" str); [discriminate|]); intros [= <-]; auto.
  - destruct (existsb _ l); [destruct (existsb (fun e => match e with YStr s => String.eqb "prior_params" s | _ => false end) l)|]; cbn [rbind yget]; try discriminate;
      (destruct (existsb (fun e => match e with YStr s => String.eqb "value" s | _ => false end) l); [discriminate|]); intros [= <-]; auto.
  - destruct (mem "prior" d) eqn:E1; [destruct (mem "prior_params" d) eqn:E2|]; cbn [rbind andb negb].
    + unfold yget. rewrite (sub_mem _ _ E2), (sub_mem _ _ E1). cbn [rbind].
      destruct (sub "prior_params" (YMap d)) as [| | | | |pp] eqn:Epp; cbn [rbind]; try discriminate.
      destruct (conv_params pp) as [ps|] eqn:Ec; cbn [rbind]; [|discriminate].
      destruct (sub "prior" (YMap d)) as [| | |name| |] eqn:Ep; cbn [rbind ystr]; try discriminate.
      destruct (load_dist_from_string import name) as [c|] eqn:El; cbn [rbind]; [|discriminate].
      intros [= <-]. split; [reflexivity|]. cbn. exists (EPrior c ps). split; [|auto].
      unfold prior_entry_for, has_prior. cbn [entries]. rewrite E1, E2. cbn [andb].
      exists name, c, ps. rewrite Epp. cbn [entries]. repeat split; auto. now apply conv_params_ok.
    + destruct (mem "value" d) eqn:E3; [|intros [= <-]; auto]. unfold yget. rewrite (sub_mem _ _ E3). cbn [rbind].
      destruct (to_pval (sub "value" (YMap d))) as [v|] eqn:Ev; cbn [rbind]; [|discriminate]. intros [= <-]. split; [reflexivity|].
      exists (EConst v). split; [|auto]. unfold prior_entry_for, has_prior. cbn [entries]. rewrite E1, E2. cbn [andb].
      exists v. split; [now apply to_pval_converted | reflexivity].
    + destruct (mem "value" d) eqn:E3; [|intros [= <-]; auto]. unfold yget. rewrite (sub_mem _ _ E3). cbn [rbind].
      destruct (to_pval (sub "value" (YMap d))) as [v|] eqn:Ev; cbn [rbind]; [|discriminate]. intros [= <-]. split; [reflexivity|].
      exists (EConst v). split; [|auto]. unfold prior_entry_for, has_prior. cbn [entries]. rewrite E1. cbn [andb].
      exists v. split; [now apply to_pval_converted | reflexivity].
Qed.

Lemma add_priors_map prefix h h' r r' : (forall k v, In (k, v) h' -> assoc k h = Ok v) ->
  add_priors import prefix (YMap h) (map fst h') r = Ok r' ->
  r_models r' = r_models r /\ recr (map (fun kv => ((prefix ++ "_" ++ fst kv)%string, snd kv)) h') r r'.
Proof.
  revert r. induction h' as [|[k v] h' IH]; intros r Hin; cbn [map add_priors fst snd].
  - intros [= <-]. split; [reflexivity | constructor].
  - cbn [yget]. rewrite (Hin k v) by now left. cbn [rbind].
    destruct (add_prior import _ v r) as [r1|] eqn:E1; cbn [rbind]; [|discriminate]. intros E2.
    apply add_prior_step in E1. destruct E1 as [M1 S1]. apply IH in E2; [|intros; apply Hin; now right]. destruct E2 as [M2 S2].
    split; [congruence|]. econstructor; [exact S1 | exact S2].
Qed.
Lemma add_priors_nonmap prefix hp hps r r' : yiter hp = Ok hps -> (forall d, hp <> YMap d) ->
  add_priors import prefix hp hps r = Ok r' -> hps = [] /\ r' = r.
Proof.
  intros Hi N. destruct hps as [|p hps]; cbn; [intros [= <-]; auto|].
  destruct hp; cbn in *; try discriminate. now destruct (N d).
Qed.
Lemma add_priors_rec prefix hp hps r r' : wf hp -> yiter hp = Ok hps -> add_priors import prefix hp hps r = Ok r' ->
  r_models r' = r_models r /\ recr (under prefix hp) r r' /\ hps = map fst (entries hp).
Proof.
  intros W Hi H. destruct hp as [| | | | |d].
  1-5: destruct (add_priors_nonmap _ _ _ _ _ Hi ltac:(discriminate) H) as [-> ->]; split; [reflexivity|]; split; [constructor | reflexivity].
  cbn in Hi. injection Hi as <-. apply add_priors_map in H.
  - destruct H. auto.
  - intros k v Hin. apply in_assoc; [apply (wf_nodup _ W) | exact Hin].
Qed.

Lemma add_iid_same param subd (r r' : reader C) : add_iid param subd r = Ok r' ->
  r_priors r' = r_priors r /\ r_sampling r' = r_sampling r /\
  (r_models r' = r_models r \/ exists s, r_models r' = dset s (EIid param) (r_models r)).
Proof.
  unfold add_iid. destruct (yin "iid" subd) as [[]|]; cbn [rbind]; try discriminate; [|intros [= <-]; auto].
  destruct (yget "iid" subd); cbn [rbind]; [|discriminate]. destruct (yget "shared_parameter" _); cbn [rbind]; [|discriminate].
  destruct (ystr _ _) as [s|]; cbn [rbind]; [|discriminate]. intros [= <-]. cbn. eauto.
Qed.
Lemma add_iid_none param subd (r r' : reader C) : ~ has "iid" subd -> (exists k v, yget k subd = Ok v) -> add_iid param subd r = Ok r' -> r' = r.
Proof.
  intros N [k [v Hm]]. apply yget_sub in Hm. destruct Hm as [_ [d ->]]. unfold add_iid. cbn [yin rbind].
  destruct (mem "iid" d) eqn:E; [apply mem_keys in E; now destruct N | now intros [= <-]].
Qed.

Tactic Notation "dobind" hyp(H) ident(x) ident(E) := match type of H with rbind ?m _ = Ok _ => destruct m as [x|] eqn:E; cbn [rbind] in H; [|discriminate] end.

Lemma ystr_ok e y s : ystr e y = Ok s -> y = YStr s.
Proof. destruct y; cbn; congruence. Qed.

Lemma add_model_spec param subd r r' : wf subd -> mixture subd = false -> add_model import param subd r = Ok r' ->
  recr (declared_by param subd) r r' /\
  exists c hps, model_entry_for import subd (ESimple c hps) /\ hps = map fst (entries (sub "hyper_params" subd)) /\
    (r_models r' = dset param (ESimple c hps) (r_models r) \/
     (shares subd /\ exists s, r_models r' = dset s (EIid param) (dset param (ESimple c hps) (r_models r)))).
Proof.
  intros W Nm H. unfold add_model in H. dobind H m E1. dobind H name E2. dobind H c E3. dobind H hp E4. dobind H hps E5. dobind H r1 E6.
  apply yget_map in E1. apply ystr_ok in E2. pose proof (yget_map _ _ _ E4) as E4'.
  apply add_priors_rec in E6; [|rewrite <- E4'; now apply wf_sub | exact E5]. destruct E6 as [M1 [S1 K1]].
  pose proof (add_iid_same _ _ _ _ H) as [P2 [Q2 M2]]. unfold declared_by. rewrite Nm. split.
  - unfold recr in *. rewrite P2, Q2, E4'. exact S1.
  - exists c, hps. split; [|split].
    + exists name, c. rewrite Nm, E1, E2, E4'. repeat split; auto. now rewrite K1.
    + now rewrite E4'.
    + destruct (mem "iid" (entries subd)) eqn:Ei.
      * destruct M2 as [M2|[s M2]]; [left; rewrite M2, M1; reflexivity|]. right. split.
        -- unfold shares. rewrite Nm. now apply mem_keys.
        -- exists s. rewrite M2, M1. reflexivity.
      * left. apply add_iid_none in H; [rewrite H, M1; reflexivity | | eauto].
        unfold has. intros Hh. apply mem_keys in Hh. congruence.
Qed.

Lemma add_components_spec param subd n : forall i r r' cs ps, wf subd -> add_components import param subd i n r = Ok (r', cs, ps) ->
  r_models r' = r_models r /\
  recr (flat_map (fun j => under (param ++ "_component_" ++ dec j)%string (sub "hyper_params" (sub ("component_" ++ dec j)%string subd))) (seq (S i) n)) r r' /\
  Forall2 (fun j c' => exists n', sub "model" (sub ("component_" ++ dec j)%string subd) = YStr n' /\ load_dist_from_string import n' = Ok c') (seq (S i) n) cs /\
  ps = map (fun j => map fst (entries (sub "hyper_params" (sub ("component_" ++ dec j)%string subd)))) (seq (S i) n) /\
  Forall (fun j => exists v, yget "model" (sub ("component_" ++ dec j)%string subd) = Ok v) (seq (S i) n).
Proof.
  induction n as [|n IH]; intros i r r' cs ps W H; cbn [add_components] in H.
  - injection H as <- <- <-. split; [reflexivity|]. repeat split; constructor.
  - dobind H sb E1. dobind H m E2. dobind H name E3. dobind H c E4. dobind H hp E5. dobind H hps E6. dobind H r1 E7. dobind H rest E8.
    destruct rest as [[r2 cs'] ps']. injection H as <- <- <-.
    apply yget_map in E1. pose proof (yget_map _ _ _ E2) as E2'. apply ystr_ok in E3. apply yget_map in E5.
    apply add_priors_rec in E7; [|rewrite <- E5; apply wf_sub; rewrite <- E1; now apply wf_sub | exact E6]. destruct E7 as [M1 [S1 K1]].
    apply IH in E8; [|exact W]. destruct E8 as [M2 [S2 [F2 [K2 G2]]]].
    cbn [seq flat_map map]. split; [congruence|]. rewrite !E1, !E5. split; [|split; [|split]].
    + unfold recr in *. eapply rec_app; [exact S1 | exact S2].
    + constructor; [|exact F2]. rewrite E1. exists name. rewrite E2', E3. auto.
    + now rewrite K1, K2.
    + constructor; [|exact G2]. rewrite E1. eauto.
Qed.

Lemma add_mixture_spec param subd r r' : wf subd -> mixture subd = true -> add_mixture_model import param subd r = Ok r' ->
  recr (declared_by param subd) r r' /\
  exists e, model_entry_for import subd e /\
    (r_models r' = dset param e (r_models r) \/ (shares subd /\ exists s, r_models r' = dset s (EIid param) (dset param e (r_models r)))).
Proof.
  intros W Nm H. unfold add_mixture_model in H. dobind H m E1. dobind H name E2. dobind H c E3. dobind H md E4. dobind H mm E5.
  dobind H mname E6. dobind H mc E7. dobind H mhp E8. dobind H mps E9. dobind H N E10. dobind H r1 E11. dobind H res E12.
  destruct res as [[r2 cs] ps].
  apply yget_map in E1. apply ystr_ok in E2. apply yget_map in E4. apply yget_map in E5. apply ystr_ok in E6. apply yget_map in E8.
  assert (Wmd : wf mhp) by (rewrite <- E8; apply wf_sub; rewrite <- E4; now apply wf_sub).
  apply add_priors_rec in E11; [|exact Wmd | exact E9]. destruct E11 as [M1 [S1 K1]].
  apply add_components_spec in E12; [|exact W]. destruct E12 as [M2 [S2 [F2 [K2 G2]]]].
  assert (HN : n_components subd = N).
  { unfold n_components. rewrite E4, E8. destruct mps as [|p mps]; [discriminate|].
    destruct (entries mhp) as [|[p' first] tl] eqn:En; [discriminate|]. cbn in K1. injection K1 as -> _.
    dobind E10 x X1. dobind E10 y X2. dobind E10 z X3. apply yget_map in X1. apply yget_map in X2. apply yget_map in X3.
    destruct mhp as [| | | | |d]; try discriminate. cbn in En. subst d. cbn in X1. rewrite String.eqb_refl in X1. subst first.
    rewrite X2, X3, E10. reflexivity. }
  destruct N as [|N]; [discriminate|]. dobind H lastc E13. apply yget_map in E13.
  pose proof (add_iid_same _ _ _ _ H) as [P3 [Q3 M3]]. unfold declared_by. rewrite Nm, E4, E8, HN. split.
  - unfold recr in *. rewrite P3, Q3. eapply rec_app; [exact S1 | exact S2].
  - exists (EMixture c mc mps cs ps). split.
    + exists name, c. rewrite Nm, E1, E2. repeat split; auto. cbv zeta. rewrite E4, HN, E8. exists mname, mc, cs.
      rewrite E5, E6. repeat split; auto. now rewrite K2, K1.
    + unfold shares. rewrite Nm, HN, E13. destruct (mem "iid" (entries lastc)) eqn:Ei.
      * destruct M3 as [M3|[s M3]]; [left; rewrite M3; cbn [set_model r_models]; now rewrite M2, M1|]. right. split; [now apply mem_keys|].
        exists s. rewrite M3. cbn [set_model r_models]. now rewrite M2, M1.
      * left. apply add_iid_none in H.
        -- rewrite H. cbn [set_model r_models]. now rewrite M2, M1.
        -- unfold has. intros Hh. apply mem_keys in Hh. congruence.
        -- rewrite Forall_forall in G2. destruct (G2 (S N)) as [v Hv]; [apply in_seq; lia|]. rewrite E13 in Hv. eauto.
Qed.

Lemma is_mixture_ok subd b : is_mixture subd = Ok b -> (exists name, sub "model" subd = YStr name) -> mixture subd = b.
Proof.
  unfold is_mixture, mixture. intros H [name Hn]. dobind H m E. apply yget_map in E. rewrite Hn in E |- *. subst m. cbn in H. congruence.
Qed.

(** one parameter *)
Lemma add_param_spec param subd b r r' : wf subd -> is_mixture subd = Ok b ->
  (if b then add_mixture_model import param subd r else add_model import param subd r) = Ok r' ->
  recr (declared_by param subd) r r' /\
  exists e, model_entry_for import subd e /\
    (r_models r' = dset param e (r_models r) \/ (shares subd /\ exists s, r_models r' = dset s (EIid param) (dset param e (r_models r)))).
Proof.
  intros W Hb H.
  assert (Hn : exists name, sub "model" subd = YStr name).
  { destruct b; [unfold add_mixture_model in H | unfold add_model in H]; dobind H m E1; dobind H name E2; apply yget_map in E1; apply ystr_ok in E2; exists name; congruence. }
  apply is_mixture_ok in Hb; [|exact Hn]. destruct b.
  - now apply add_mixture_spec.
  - apply add_model_spec in H; auto. destruct H as [H1 [c [hps [H2 [_ H3]]]]]. eauto.
Qed.

(** all parameters *)
Inductive built : list (string * yaml) -> reader C -> reader C -> Prop :=
  | built_nil r : built [] r r
  | built_cons k subd e l r r1 r2 : recr (declared_by k subd) r r1 -> model_entry_for import subd e ->
      (r_models r1 = dset k e (r_models r) \/ (shares subd /\ exists s, r_models r1 = dset s (EIid k) (dset k e (r_models r)))) ->
      built l r1 r2 -> built ((k, subd) :: l) r r2.

Lemma add_params_built d d' r r' : wf (YMap d) -> incl d' d -> add_params import (YMap d) (map fst d') r = Ok r' -> built d' r r'.
Proof.
  intros W. revert r. induction d' as [|[k v] d' IH]; intros r I H; cbn [map add_params fst] in H; [injection H as <-; constructor|].
  assert (Hin : In (k, v) d) by (apply I; now left).
  cbn [yget] in H. rewrite (in_assoc k v d (wf_nodup _ W) Hin) in H. cbn [rbind] in H.
  dobind H b E1. dobind H r1 E2. apply add_param_spec in E2; [|eapply (wf_entry (YMap d)); eauto | exact E1].
  destruct E2 as [S [e [He Hm]]]. econstructor; eauto. apply IH; [|exact H]. intros x Hx; apply I; now right.
Qed.

Lemma construct_built yml r r' : wf yml -> ~ has "python_file" yml -> construct_model_and_prior_dicts import yml r = Ok r' -> built (entries yml) r r'.
Proof.
  intros W N H. unfold construct_model_and_prior_dicts in H. dobind H b E1. destruct b.
  - exfalso. dobind H f E2. apply yget_sub in E2. destruct E2 as [_ [d ->]]. cbn in E1. injection E1 as E1. apply mem_keys in E1. now apply N.
  - dobind H ps E2. destruct yml as [| | |s|l|d]; try discriminate; cbn [entries].
    + cbn in E2. injection E2 as <-. destruct s; cbn in H; [injection H as <-; constructor | discriminate].
    + destruct ps; cbn in H; [injection H as <-; constructor | discriminate].
    + cbn in E2. injection E2 as <-. eapply add_params_built; [exact W | apply incl_refl | exact H].
Qed.

Lemma built_rec l r r' : built l r r' -> recr (flat_map (fun kv => declared_by (fst kv) (snd kv)) l) r r'.
Proof. induction 1; cbn; [constructor|]. eapply rec_app; eauto. Qed.

(** ** consequences *)
Lemma rec_sampling ds pr sm pr' sm' : rec ds pr sm pr' sm' -> sm' = sm ++ map fst (filter (fun kv => has_prior (snd kv)) ds).
Proof.
  induction 1 as [|kv ds pr sm pr1 sm1 pr2 sm2 S R IH]; cbn; [now rewrite app_nil_r|]. subst. unfold stepp in S.
  destruct (has_prior (snd kv)); [destruct S as [e [_ [_ ->]]]; cbn; now rewrite <- app_assoc|].
  destruct (has_value (snd kv)); [destruct S as [e [_ [_ ->]]] | destruct S as [_ ->]]; reflexivity.
Qed.
Lemma rec_keys ds pr sm pr' sm' : rec ds pr sm pr' sm' -> forall k,
  In k (keys pr') <-> In k (keys pr) \/ exists decl, In (k, decl) ds /\ (has_prior decl = true \/ has_value decl = true).
Proof.
  induction 1 as [|[k0 y0] ds pr sm pr1 sm1 pr2 sm2 S R IH]; intros k; [split; [auto | intros [H|[d [[] _]]]; exact H]|].
  rewrite IH. clear IH R. unfold stepp in S. cbn [fst snd] in S.
  assert (G : In k (keys pr1) <-> In k (keys pr) \/ (k = k0 /\ (has_prior y0 = true \/ has_value y0 = true))).
  { destruct (has_prior y0); [|destruct (has_value y0)].
    - destruct S as [e [_ [-> _]]]. rewrite keys_dset. intuition.
    - destruct S as [e [_ [-> _]]]. rewrite keys_dset. intuition.
    - destruct S as [-> _]. intuition congruence. }
  rewrite G. split.
  - intros [[H|[-> H]]|[d [H1 H2]]]; [auto | right; exists y0; cbn; auto | right; exists d; cbn; auto].
  - intros [H|[d [[[= -> ->]|H1] H2]]]; [auto | auto | right; eauto].
Qed.
Lemma rec_value ds pr sm pr' sm' : rec ds pr sm pr' sm' -> NoDup (map fst ds) -> forall k decl, In (k, decl) ds ->
  has_prior decl = true \/ has_value decl = true -> exists e, assoc k pr' = Ok e /\ prior_entry_for import decl e.
Proof.
  assert (Keep : forall ds pr sm pr' sm', rec ds pr sm pr' sm' -> forall k, ~ In k (map fst ds) -> assoc k pr' = assoc k pr).
  { induction 1 as [|[k0 y0] ds0 pr0 sm0 pr1 sm1 pr2 sm2 S R IH]; intros k N; [reflexivity|]. cbn in N. rewrite IH by tauto.
    unfold stepp in S. cbn [fst snd] in S. destruct (has_prior y0); [|destruct (has_value y0)];
      [destruct S as [e [_ [-> _]]]; apply assoc_dset_other; intros ->; tauto .. | destruct S as [-> _]; reflexivity]. }
  induction 1 as [|[k0 y0] ds pr sm pr1 sm1 pr2 sm2 S R IH]; intros ND k decl Hin Hd; [easy|].
  cbn in ND. apply NoDup_cons_iff in ND. destruct ND as [N1 N2]. destruct Hin as [[= -> ->]|Hin]; [|eauto].
  unfold stepp in S. cbn [fst snd] in S. destruct (has_prior decl) eqn:E1; [|destruct (has_value decl) eqn:E2].
  - destruct S as [e [He [-> _]]]. exists e. split; [|exact He]. rewrite (Keep _ _ _ _ _ R _ N1). apply assoc_dset_same.
  - destruct S as [e [He [-> _]]]. exists e. split; [|exact He]. rewrite (Keep _ _ _ _ _ R _ N1). apply assoc_dset_same.
  - destruct Hd; discriminate.
Qed.

(** the models *)
Lemma in_dset {A} k (v : A) d k' v' : In (k', v') (dset k v d) -> (k' = k /\ v' = v) \/ In (k', v') d.
Proof.
  induction d as [|[a b] d IH]; cbn; [intros [[= -> ->]|[]]; auto|].
  destruct (String.eqb_spec k a); cbn.
  - subst. intros [[= -> ->]|H]; auto.
  - intros [H|H]; [auto|]. apply IH in H. tauto.
Qed.

Lemma Forall2_len {A B} (P : A -> B -> Prop) l m : Forall2 P l m -> length l = length m.
Proof. induction 1; cbn; congruence. Qed.
Lemma looked_up_declared subd e k key : model_entry_for import subd e -> looked_up k e key -> In key (map fst (declared_by k subd)).
Proof.
  intros [name [c [_ [_ H]]]] L. unfold declared_by. destruct (mixture subd).
  - destruct H as [mname [mc [cs [_ [_ [F ->]]]]]]. cbn in L. rewrite map_app. apply in_or_app.
    destruct L as [[p [Hp ->]]|[i [ps [p [Hi [Hps [Hp ->]]]]]]].
    + left. unfold under. rewrite map_map. cbn. apply in_map_iff in Hp. destruct Hp as [kv [<- Hkv]]. apply in_map_iff. exists kv. split; [|exact Hkv].
      rewrite sapp_assoc. reflexivity.
    + right. apply Forall2_len in F. rewrite seq_length in F.
      apply nth_error_In in Hps as Hps'. rewrite nth_error_map in Hps.
      destruct (nth_error (seq 1 (n_components subd)) i) as [j|] eqn:Ej; [|discriminate]. cbn in Hps. injection Hps as <-.
      assert (j = S i).
      { apply (nth_error_nth _ _ O) in Ej. rewrite seq_nth in Ej by lia. cbn in Ej. congruence. }
      subst j. apply in_map_iff in Hp. destruct Hp as [kv [<- Hkv]].
      apply in_map_iff. exists ((k ++ "_component_" ++ dec (S i)) ++ "_" ++ fst kv, snd kv)%string. split.
      * cbn [fst]. rewrite !sapp_assoc. reflexivity.
      * apply in_flat_map. exists (S i). split; [apply in_seq; lia|]. unfold under. apply in_map_iff. exists kv. auto.
  - subst e. cbn in L. destruct L as [p [Hp ->]]. unfold under. rewrite map_map. cbn. apply in_map_iff in Hp. destruct Hp as [kv [<- Hkv]].
    apply in_map_iff. exists kv. auto.
Qed.

Definition complete (r : reader C) : Prop := forall k e key, In (k, e) (r_models r) -> looked_up k e key -> In key (keys (r_priors r)).
Lemma built_complete l r r' : built l r r' ->
  (forall k decl, In (k, decl) (flat_map (fun kv => declared_by (fst kv) (snd kv)) l) -> has_prior decl = true \/ has_value decl = true) ->
  complete r -> complete r'.
Proof.
  induction 1 as [|k subd e l r r1 r2 S He Hm B IH]; intros Hall Hc; [exact Hc|].
  apply IH; [intros k' decl Hin; apply (Hall k'); cbn; apply in_or_app; now right|].
  intros k' e' key Hin L.
  assert (Hin' : (k' = k /\ e' = e) \/ In (k', e') (r_models r)).
  { destruct Hm as [Hm|[_ [s Hm]]]; rewrite Hm in Hin.
    - now apply in_dset in Hin.
    - apply in_dset in Hin. destruct Hin as [[_ ->]|Hin]; [destruct L|]. now apply in_dset in Hin. }
  apply (rec_keys _ _ _ _ _ S). destruct Hin' as [[-> ->]|Hin'].
  - right. apply (looked_up_declared subd) in L; [|exact He]. apply in_map_iff in L. destruct L as [[key' decl] [<- Hd]].
    exists decl. split; [exact Hd|]. apply (Hall key'). cbn. apply in_or_app. now left.
  - left. eapply Hc; eauto.
Qed.

Lemma built_models l r r' : built l r r' -> NoDup (map fst l) -> (forall k subd, In (k, subd) l -> ~ shares subd) ->
  (forall k subd, In (k, subd) l -> exists e, assoc k (r_models r') = Ok e /\ model_entry_for import subd e) /\
  (forall k, ~ In k (map fst l) -> assoc k (r_models r') = assoc k (r_models r)).
Proof.
  induction 1 as [|k subd e l r r1 r2 S He Hm B IH]; intros ND Ns; [split; [easy | reflexivity]|].
  cbn in ND. apply NoDup_cons_iff in ND. destruct ND as [N1 N2].
  destruct (IH N2) as [IH1 IH2]; [intros; eapply Ns; right; eauto|].
  assert (Hm' : r_models r1 = dset k e (r_models r)).
  { destruct Hm as [Hm|[Hs _]]; [exact Hm|]. exfalso. eapply Ns; [left; reflexivity | exact Hs]. }
  split.
  - intros k' subd' [[= -> ->]|Hin]; [|auto]. exists e. split; [|exact He]. rewrite IH2 by exact N1. rewrite Hm'. apply assoc_dset_same.
  - intros k' N. cbn in N. rewrite IH2 by tauto. rewrite Hm'. apply assoc_dset_other. intros ->. tauto.
Qed.

(** ** C67 *)
Theorem reader_records yml r r' : wf yml -> ~ has "python_file" yml -> construct_model_and_prior_dicts import yml r = Ok r' ->
  r_sampling r' = r_sampling r ++ map fst (filter (fun kv => has_prior (snd kv)) (declared yml)) /\
  (forall k, In k (keys (r_priors r')) <->
     In k (keys (r_priors r)) \/ exists decl, In (k, decl) (declared yml) /\ (has_prior decl = true \/ has_value decl = true)).
Proof.
  intros W N H. pose proof (built_rec _ _ _ (construct_built _ _ _ W N H)) as R. split.
  - exact (rec_sampling _ _ _ _ _ R).
  - exact (rec_keys _ _ _ _ _ R).
Qed.
Theorem reader_values yml r r' k decl : wf yml -> ~ has "python_file" yml -> NoDup (map fst (declared yml)) ->
  construct_model_and_prior_dicts import yml r = Ok r' -> In (k, decl) (declared yml) -> has_prior decl = true \/ has_value decl = true ->
  exists e, assoc k (r_priors r') = Ok e /\ prior_entry_for import decl e.
Proof.
  intros W N ND H Hin Hd. pose proof (built_rec _ _ _ (construct_built _ _ _ W N H)) as R. exact (rec_value _ _ _ _ _ R ND _ _ Hin Hd).
Qed.
Theorem reader_models yml r r' param subd : wf yml -> ~ has "python_file" yml -> (forall k s, In (k, s) (entries yml) -> ~ shares s) ->
  construct_model_and_prior_dicts import yml r = Ok r' -> In (param, subd) (entries yml) ->
  exists e, assoc param (r_models r') = Ok e /\ model_entry_for import subd e.
Proof.
  intros W N Ns H Hin. destruct (built_models _ _ _ (construct_built _ _ _ W N H) (wf_nodup _ W) Ns) as [H1 _]. auto.
Qed.
Theorem reader_complete yml r r' : wf yml -> ~ has "python_file" yml -> construct_model_and_prior_dicts import yml r = Ok r' ->
  (forall k decl, In (k, decl) (declared yml) -> has_prior decl = true \/ has_value decl = true) ->
  (forall k e key, In (k, e) (r_models r) -> looked_up k e key -> In key (keys (r_priors r))) ->
  forall k e key, In (k, e) (r_models r') -> looked_up k e key -> In key (keys (r_priors r')).
Proof. intros W N H Hall Hc. exact (built_complete _ _ _ (construct_built _ _ _ W N H) Hall Hc). Qed.
End Reader.

Lemma reader_ragged {C} (import : string -> string -> result C) yml r k decl l :
  wf yml -> ~ has "python_file" yml -> NoDup (map fst (declared yml)) -> In (k, decl) (declared yml) ->
  (has_prior decl = false /\ has_value decl = true /\ sub "value" decl = YList l \/
   has_prior decl = true /\ In (YList l) (map snd (entries (sub "prior_params" decl)))) ->
  (forall s, ~ has_shape (YList l) s) -> exists e, construct_model_and_prior_dicts import yml r = Err e.
Proof.
  intros W Np Nd Hin Hd Hs. destruct (construct_model_and_prior_dicts import yml r) as [r'|e] eqn:E; [exfalso|eauto].
  assert (Hp : has_prior decl = true \/ has_value decl = true) by (destruct Hd as [(_ & ? & _)|(? & _)]; auto).
  destruct (reader_values import yml r r' k decl W Np Nd E Hin Hp) as (e & _ & H). unfold prior_entry_for in H.
  destruct Hd as [(Hf & _ & Hv)|(Ht & Hi)].
  - rewrite Hf in H. destruct H as (v & Hc & _). rewrite Hv in Hc. destruct Hc as (_ & s & Hsh). exact (Hs s Hsh).
  - rewrite Ht in H. destruct H as (name & c & ps & _ & _ & _ & F). apply in_map_iff in Hi as ([k' y] & Hy & Hi). cbn in Hy. subst y.
    induction F as [|a b la lb Hab F IH]; [destruct Hi|]. destruct Hi as [->|Hi]; [|auto]. destruct Hab as [_ Hc]. cbn in Hc. destruct Hc as (_ & s & Hsh). exact (Hs s Hsh).
Qed.
