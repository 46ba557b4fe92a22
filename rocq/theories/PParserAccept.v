From Verif Require Import PConstruct PParser SpecAccept.
From Coq Require Import Lia.
Open Scope string_scope.
Open Scope list_scope.

Section Accept.
Context {C : Type} (import : string -> string -> result C).

Lemma yget_of k y v : sub k y = v -> v <> YNull -> yget k y = Ok v.
Proof. unfold sub. destruct y as [| | | | |d]; try (intros <- N; congruence). cbn [yget]. destruct (assoc k d); [intros ->; reflexivity|intros <- N; congruence]. Qed.
Lemma sub_isfun k y v : sub k y = v -> v <> YNull -> exists d, y = YMap d.
Proof. unfold sub. destruct y as [| | | | |d]; try (intros <- N; congruence). eauto. Qed.
Lemma storable_ok y : storable y -> exists v, to_pval y = Ok v.
Proof. unfold storable, to_pval. destruct y; eauto. intros (s & H). rewrite (has_yshape _ _ H). eauto. Qed.
Lemma conv_ok ps : Forall (fun kv : string * yaml => storable (snd kv)) ps -> exists vs, conv_params ps = Ok vs.
Proof. induction 1 as [|[k y] l H F (vs & IH)]; cbn [conv_params]; eauto. destruct (storable_ok y H) as (v & ->). cbn [rbind]. rewrite IH. cbn [rbind]. eauto. Qed.
Lemma prior_ok key decl (r : reader C) : good_declaration import decl -> exists r', add_prior import key decl r = Ok r'.
Proof.
  intros ((d & ->) & HP & HV). unfold has_value in HV. unfold has_prior in HP, HV. unfold add_prior. cbn [entries yin rbind] in *.
  assert (V : has_prior (YMap d) = false -> exists r', (do b <- Ok (mem "value" d); if (b : bool) then do y <- yget "value" (YMap d); do v <- to_pval y; Ok (set_prior key (EConst v) r) else Ok r) = Ok r').
  { intros N. cbn [rbind]. destruct (mem "value" d) eqn:E; eauto. unfold has_prior in N. cbn [entries] in N. rewrite N in HV. cbn [negb andb] in HV.
    unfold yget. rewrite (sub_mem _ _ E). cbn [rbind]. destruct (storable_ok _ (HV eq_refl)) as (v & ->). cbn [rbind]. eauto. }
  unfold has_prior in V. cbn [entries] in V.
  destruct (mem "prior" d) eqn:E1; [|exact (V eq_refl)]. destruct (mem "prior_params" d) eqn:E2; [|exact (V eq_refl)]. cbn [rbind].
  destruct (HP eq_refl) as ((s & c & Hs & Hc) & ps & Hps & F). unfold yget. rewrite (sub_mem _ _ E1), (sub_mem _ _ E2), Hs, Hps. cbn [rbind ystr].
  destruct (conv_ok ps F) as (vs & ->). cbn [rbind]. rewrite Hc. cbn [rbind]. eauto.
Qed.
Lemma priors_ok prefix hps : forall l (r : reader C), (forall k v, In (k, v) l -> assoc k hps = Ok v) -> Forall (fun kv => good_declaration import (snd kv)) l ->
  exists r', add_priors import prefix (YMap hps) (map fst l) r = Ok r'.
Proof.
  induction l as [|[k v] l IH]; intros r Hi F; cbn [map fst add_priors]; eauto. cbn [yget]. rewrite (Hi k v) by now left. cbn [rbind].
  inversion F as [|? ? Hd F']; subst. destruct (prior_ok (prefix ++ "_" ++ k)%string v r Hd) as (r1 & ->). cbn [rbind]. apply IH; auto. intros; apply Hi; now right.
Qed.
Lemma iid_ok param subd (r : reader C) : (exists d, subd = YMap d) -> good_sharing subd -> exists r', add_iid param subd r = Ok r'.
Proof.
  intros (d & ->) G. unfold add_iid. cbn [yin rbind]. destruct (mem "iid" d) eqn:E; eauto.
  destruct (G ltac:(unfold has; cbn [entries]; now apply mem_keys)) as (s & Hs). unfold yget at 1. rewrite (sub_mem _ _ E). cbn [rbind].
  rewrite (yget_of "shared_parameter" _ (YStr s) Hs) by discriminate. cbn [rbind ystr]. eauto.
Qed.
Lemma model_ok param subd (r : reader C) : wf subd -> good_model import subd -> good_sharing subd -> exists r', add_model import param subd r = Ok r'.
Proof.
  intros W ((s & c & Hs & Hc) & hps & Hh & F) G. unfold add_model. rewrite (yget_of _ _ _ Hs) by discriminate. cbn [rbind ystr]. rewrite Hc. cbn [rbind].
  rewrite (yget_of _ _ _ Hh) by discriminate. cbn [rbind yiter]. assert (Wh : wf (YMap hps)) by (rewrite <- Hh; now apply wf_sub).
  destruct (priors_ok param hps hps (set_model param (ESimple c (keys hps)) r)) as (r1 & E1); auto. { intros k v Hi. apply in_assoc; [apply (wf_nodup _ Wh)|exact Hi]. }
  fold (keys hps) in E1. rewrite E1. cbn [rbind]. apply iid_ok; auto. apply (sub_isfun _ _ _ Hs). discriminate.
Qed.
Lemma components_ok param subd N : wf subd -> (forall i, (1 <= i <= N)%nat -> good_model import (sub ("component_" ++ dec i)%string subd)) ->
  forall n i (r : reader C), (i + n = N)%nat -> exists r' cs ps, add_components import param subd i n r = Ok (r', cs, ps).
Proof.
  intros W G. induction n as [|n IH]; intros i r Hn; cbn [add_components]; [eauto|].
  destruct (G (S i) ltac:(lia)) as ((s & c & Hs & Hc) & hps & Hh & F).
  assert (Wc : wf (sub ("component_" ++ dec (S i))%string subd)) by now apply wf_sub.
  destruct (sub_isfun _ _ _ Hs ltac:(discriminate)) as (dc & Ed). rewrite (yget_of _ _ _ Ed) by discriminate. cbn [rbind]. rewrite Ed in Hs, Hh, Wc.
  rewrite (yget_of _ _ _ Hs) by discriminate. cbn [rbind ystr]. rewrite Hc. cbn [rbind].
  rewrite (yget_of _ _ _ Hh) by discriminate. cbn [rbind yiter]. assert (Wh : wf (YMap hps)) by (rewrite <- Hh; now apply wf_sub).
  destruct (priors_ok (param ++ "_" ++ ("component_" ++ dec (S i)))%string hps hps r) as (r1 & E1); auto. { intros k v Hi. apply in_assoc; [apply (wf_nodup _ Wh)|exact Hi]. }
  fold (keys hps) in E1. rewrite E1. cbn [rbind]. destruct (IH (S i) r1 ltac:(lia)) as (r2 & cs & ps & ->). cbn [rbind]. eauto.
Qed.
Lemma mixture_ok param subd (r : reader C) : wf subd -> mixture subd = true -> good_parameter import subd -> exists r', add_mixture_model import param subd r = Ok r'.
Proof.
  intros W Hm G. unfold good_parameter in G. rewrite Hm in G. destruct G as ((s & c & Hs & Hc) & Gm & Hn & Gc & Gs). unfold add_mixture_model.
  rewrite (yget_of _ _ _ Hs) by discriminate. cbn [rbind ystr]. rewrite Hc. cbn [rbind].
  pose proof Gm as ((ms & mc & Hms & Hmc) & mhp & Hmh & F). pose proof (wf_sub "mixture_dist" _ W) as Wm.
  destruct (sub_isfun _ _ _ Hms ltac:(discriminate)) as (dm & Ed). rewrite (yget_of _ _ _ Ed) by discriminate. cbn [rbind]. rewrite Ed in *.
  rewrite (yget_of _ _ _ Hms) by discriminate. cbn [rbind ystr]. rewrite Hmc. cbn [rbind]. rewrite (yget_of _ _ _ Hmh) by discriminate. cbn [rbind yiter].
  assert (Wh : wf (YMap mhp)) by (rewrite <- Hmh; now apply wf_sub).
  set (N := n_components subd) in *.
  assert (EN : (match keys mhp with [] => Err IndexError | p :: _ => do x <- yget p (YMap mhp); do x <- yget "prior_params" x; do x <- yget "concentration" x; ylen x end) = Ok N).
  { unfold N, n_components. unfold N, n_components in Hn. rewrite Ed, Hmh in Hn |- *. cbn [entries] in Hn |- *. destruct mhp as [|[p first] tl]; [lia|]. cbn [keys map fst]. cbn [yget assoc]. rewrite String.eqb_refl. cbn [rbind].
    destruct (ylen (sub "concentration" (sub "prior_params" first))) as [n|] eqn:El; [|lia].
    assert (NN : sub "concentration" (sub "prior_params" first) <> YNull) by (intros X; rewrite X in El; discriminate).
    destruct (sub_isfun _ _ _ eq_refl NN) as (dp & Ep). rewrite (yget_of "prior_params" first _ Ep) by discriminate. cbn [rbind].
    rewrite (yget_of "concentration" (YMap dp) (sub "concentration" (YMap dp)) eq_refl) by (rewrite <- Ep; exact NN). cbn [rbind]. rewrite <- Ep. exact El. }
  rewrite EN. cbn [rbind]. destruct (priors_ok (param ++ "_mixture_dist")%string mhp mhp r) as (r1 & E1); auto. { intros k v Hi. apply in_assoc; [apply (wf_nodup _ Wh)|exact Hi]. }
  fold (keys mhp) in E1. rewrite E1. cbn [rbind]. destruct (components_ok param subd N W Gc N 0 r1 eq_refl) as (r2 & cs & ps & ->). cbn [rbind].
  clearbody N. destruct N as [|N]; [lia|]. destruct (Gc (S N) ltac:(lia)) as ((s' & c' & Hs' & _) & _).
  destruct (sub_isfun _ _ _ Hs' ltac:(discriminate)) as (dc & Edc). rewrite (yget_of _ _ _ Edc) by discriminate. cbn [rbind]. rewrite Edc in Gs. apply iid_ok; eauto.
Qed.
Theorem reader_accepts yml (r : reader C) : wf yml -> (exists d, yml = YMap d) -> ~ has "python_file" yml -> Forall (fun kv => good_parameter import (snd kv)) (entries yml) ->
  exists r', construct_model_and_prior_dicts import yml r = Ok r'.
Proof.
  intros W (d & ->) Np F. unfold construct_model_and_prior_dicts. cbn [yin rbind]. destruct (mem "python_file" d) eqn:E; [exfalso; apply Np; unfold has; cbn [entries]; now apply mem_keys|].
  cbn [yiter rbind]. cbn [entries] in F. assert (G : forall l (r : reader C), incl l d -> exists r', add_params import (YMap d) (map fst l) r = Ok r').
  { induction l as [|[k v] l IH]; intros r0 I; cbn [map fst add_params]; eauto. assert (Hin : In (k, v) d) by (apply I; now left).
    cbn [yget]. rewrite (in_assoc k v d (wf_nodup _ W) Hin). cbn [rbind]. rewrite Forall_forall in F. pose proof (F _ Hin) as Gv. cbn [snd] in Gv.
    assert (Wv : wf v) by (eapply (wf_entry (YMap d)); eauto).
    assert (Nm : exists s, sub "model" v = YStr s) by (unfold good_parameter in Gv; destruct (mixture v); [destruct Gv as ((s & c & Hs & _) & _)|destruct Gv as (((s & c & Hs & _) & _) & _)]; eauto).
    destruct Nm as (s & Hs). unfold is_mixture. rewrite (yget_of _ _ _ Hs) by discriminate. cbn [rbind yin]. assert (Em : mixture v = contains "Mixture" s) by (unfold mixture; now rewrite Hs). 
    assert (X : exists r1, (if contains "Mixture" s then add_mixture_model import k v r0 else add_model import k v r0) = Ok r1).
    { destruct (contains "Mixture" s) eqn:Ec; [apply mixture_ok; auto|]. unfold good_parameter in Gv. rewrite Em in Gv. destruct Gv. apply model_ok; auto. }
    destruct X as (r1 & ->). cbn [rbind]. apply IH. intros x Hx. apply I. now right. }
  apply (G d r), incl_refl.
Qed.
End Accept.
