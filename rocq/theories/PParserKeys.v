(** Hyper-parameter names and dotted paths. *)
From Coq Require Import Lia.
From Verif Require Export SpecParser.
From Verif Require Import PConstruct PAnalysisNames PParser.
Open Scope R_scope.
Open Scope string_scope.
Open Scope list_scope.

(** ** names *)
Lemma sapp_inv_head a b c : (a ++ b = a ++ c)%string -> b = c.
Proof. induction a; cbn; [auto|]. intros H. injection H as H. auto. Qed.
Lemma key_cases p q h g : (p ++ "_" ++ h = q ++ "_" ++ g)%string -> (p = q /\ h = g) \/ extends p q \/ extends q p.
Proof.
  revert q. induction p as [|a p IH]; intros [|b q]; cbn; intros H.
  - injection H as H. auto.
  - injection H as <- H. right; left. exists q. reflexivity.
  - injection H as -> H. right; right. exists p. reflexivity.
  - injection H as -> H. destruct (IH q H) as [[-> ->]|[[x ->]|[x ->]]].
    + auto.
    + right; left. exists x. reflexivity.
    + right; right. exists x. reflexivity.
Qed.
Lemma digits_us d e x y : Forall (fun c => is_digit c = true) d -> Forall (fun c => is_digit c = true) e ->
  d ++ "_"%char :: x = e ++ "_"%char :: y -> d = e.
Proof.
  revert e. induction d as [|a d IH]; intros [|b e] Hd He; cbn; intros H; auto.
  - injection H as <- _. inversion He. discriminate.
  - injection H as -> _. inversion Hd. discriminate.
  - injection H as -> H. inversion Hd; inversion He; subst. f_equal. eauto.
Qed.
Lemma NoDup_flat {A B} (f : A -> list B) l : NoDup l -> (forall x, In x l -> NoDup (f x)) ->
  (forall x y b, In x l -> In y l -> In b (f x) -> In b (f y) -> x = y) -> NoDup (flat_map f l).
Proof.
  induction 1 as [|a l N ND IH]; intros H1 H2; cbn; [constructor|]. apply NoDup_app_.
  - apply H1; now left.
  - apply IH; intros; [apply H1; now right | eapply H2; eauto; now right].
  - intros b Hb Hc. apply in_flat_map in Hc. destruct Hc as [y [Hy Hc]]. apply N.
    rewrite (H2 a y b); auto; [now left | now right].
Qed.
Lemma map_flat_map {A B X} (g : B -> X) (f : A -> list B) l : map g (flat_map f l) = flat_map (fun x => map g (f x)) l.
Proof. induction l; cbn; [reflexivity|]. now rewrite map_app, IHl. Qed.

Lemma under_names prefix hp : map fst (under prefix hp) = map (fun k => (prefix ++ "_" ++ k)%string) (map fst (entries hp)).
Proof. unfold under. rewrite !map_map. reflexivity. Qed.
Lemma under_nodup prefix hp : wf hp -> NoDup (map fst (under prefix hp)).
Proof.
  intros W. rewrite under_names. apply FinFun.Injective_map_NoDup; [|now apply wf_nodup].
  intros a b H. apply sapp_inv_head in H. injection H as H. exact H.
Qed.
Lemma declared_by_form param subd key : In key (map fst (declared_by param subd)) -> exists x, key = (param ++ "_" ++ x)%string.
Proof.
  unfold declared_by. destruct (mixture subd).
  - rewrite map_app, map_flat_map. intros H. apply in_app_or in H. destruct H as [H|H].
    + rewrite under_names in H. apply in_map_iff in H. destruct H as [k [<- _]]. exists ("mixture_dist_" ++ k)%string. rewrite !sapp_assoc. reflexivity.
    + apply in_flat_map in H. destruct H as [i [_ H]]. rewrite under_names in H. apply in_map_iff in H. destruct H as [k [<- _]].
      exists ("component_" ++ dec i ++ "_" ++ k)%string. rewrite !sapp_assoc. reflexivity.
  - intros H. rewrite under_names in H. apply in_map_iff in H. destruct H as [k [<- _]]. eauto.
Qed.
Lemma declared_by_nodup param subd : wf subd -> NoDup (map fst (declared_by param subd)).
Proof.
  intros W. unfold declared_by. destruct (mixture subd); [|apply under_nodup; now apply wf_sub].
  rewrite map_app, map_flat_map. apply NoDup_app_.
  - apply under_nodup. now apply wf_sub, wf_sub.
  - apply NoDup_flat.
    + apply seq_NoDup.
    + intros i _. apply under_nodup. now apply wf_sub, wf_sub.
    + intros i j b _ _ Hi Hj. rewrite under_names in Hi, Hj. apply in_map_iff in Hi, Hj. destruct Hi as [k [<- _]], Hj as [k' [E _]].
      rewrite !sapp_assoc in E. apply sapp_inv_head in E. apply (sapp_inv_head "_component_") in E.
      apply (f_equal L) in E. rewrite !L_app in E. cbn in E. apply digits_us in E; try apply digits_dec. apply L_inj, dec_inj in E. congruence.
  - intros x H1 H2. rewrite under_names in H1. apply in_map_iff in H1. destruct H1 as [k [<- _]].
    apply in_flat_map in H2. destruct H2 as [i [_ H2]]. rewrite under_names in H2. apply in_map_iff in H2. destruct H2 as [k' [E _]].
    rewrite !sapp_assoc in E. apply sapp_inv_head in E. discriminate.
Qed.

(** C68 *)
Theorem declared_distinct yml : wf yml ->
  (forall p q, In p (map fst (entries yml)) -> In q (map fst (entries yml)) -> ~ extends p q) ->
  NoDup (map fst (declared yml)).
Proof.
  intros W Hx. unfold declared. rewrite map_flat_map.
  assert (G : forall l, incl l (entries yml) -> NoDup (map fst l) -> NoDup (flat_map (fun kv => map fst (declared_by (fst kv) (snd kv))) l)).
  { induction l as [|[k v] l IH]; intros I ND; [constructor|]. cbn in ND. apply NoDup_cons_iff in ND. destruct ND as [N1 N2]. cbn.
    apply NoDup_app_.
    - apply declared_by_nodup. apply (wf_entry yml k v W). apply I; now left.
    - apply IH; [intros x Hx'; apply I; now right | exact N2].
    - intros x H1 H2. apply declared_by_form in H1. destruct H1 as [h ->].
      apply in_flat_map in H2. destruct H2 as [[k' v'] [Hin H2]]. cbn in H2. apply declared_by_form in H2. destruct H2 as [g E].
      assert (Ik : In k (map fst (entries yml))) by (apply (in_map fst _ (k, v)), I; now left).
      assert (Ik' : In k' (map fst (entries yml))) by (apply (in_map fst _ (k', v')), I; now right).
      destruct (key_cases _ _ _ _ E) as [[-> _]|[X|X]].
      + apply N1. apply (in_map fst _ (k', v')). exact Hin.
      + exact (Hx _ _ Ik Ik' X).
      + exact (Hx _ _ Ik' Ik X). }
  apply G; [apply incl_refl | now apply wf_nodup].
Qed.

(** ** paths *)
Lemma split_nonempty c s : py_split c s <> [].
Proof. destruct s as [|a s]; cbn; [discriminate|]. destruct (Ascii.eqb a c); [discriminate|]. destruct (py_split c s); discriminate. Qed.
Lemma split_free c s : free_of c s -> py_split c s = s :: nil.
Proof.
  unfold free_of. induction s as [|a s IH]; cbn; [reflexivity|]. intros H. destruct (Ascii.eqb_spec a c); [subst; tauto|].
  rewrite IH by tauto. reflexivity.
Qed.
Lemma split_app c m f : free_of c f -> py_split c (m ++ String c f)%string = py_split c m ++ f :: nil.
Proof.
  intros F. induction m as [|a m IH]; cbn.
  - rewrite Ascii.eqb_refl, split_free by assumption. reflexivity.
  - rewrite IH. destruct (Ascii.eqb a c); [reflexivity|]. pose proof (split_nonempty c m). destruct (py_split c m); [easy | reflexivity].
Qed.
Lemma join_split c s : join (String c "") (py_split c s) = s.
Proof.
  unfold join. induction s as [|a s IH]; [reflexivity|]. cbn. pose proof (split_nonempty c s). destruct (Ascii.eqb_spec a c).
  - subst. destruct (py_split c s) as [|h t]; [easy|]. change (String c (String.concat (String c "") (h :: t)) = String c s). now rewrite IH.
  - destruct (py_split c s) as [|h t]; [easy|]. destruct t; cbn in *; congruence.
Qed.

(** C69, dotted names *)
Theorem dotted_path {C} (import : string -> string -> result C) m f : m <> "" -> ~ (exists m', m = String "." m') -> free_of "." f ->
  load_dist_from_string import (m ++ "." ++ f)%string = import m f.
Proof.
  intros N1 N2 F. unfold load_dist_from_string. change ("." ++ f)%string with (String "." f). rewrite split_app by assumption.
  rewrite removelast_last. unfold last_str. rewrite last_last, join_split.
  destruct m as [|a m]; [easy|]. destruct (Ascii.eqb_spec a "."); [|reflexivity]. subst. destruct N2; eauto.
Qed.
Theorem undotted_path {C} (import : string -> string -> result C) f : free_of "." f -> load_dist_from_string import f = Err ValueError.
Proof. intros F. unfold load_dist_from_string. now rewrite split_free. Qed.

Lemma prefix_app s t : String.prefix s (s ++ t)%string = true.
Proof. induction s as [|a s IH]; [destruct t; reflexivity|]. cbn. destruct (ascii_dec a a); [exact IH | easy]. Qed.
Lemma prefix_split s t : String.prefix s t = true -> exists v, t = (s ++ v)%string.
Proof.
  revert t. induction s as [|a s IH]; intros t H; [exists t; reflexivity|]. destruct t as [|b t]; cbn in H; [discriminate|].
  destruct (ascii_dec a b); [|discriminate]. subst. destruct (IH t H) as [v ->]. exists v. reflexivity.
Qed.
Lemma skip_all old new s : replace_from old new (String.length s) s = "".
Proof. induction s; cbn; auto. Qed.
Lemma replace_end old pre : old <> "" -> occurs_only_after old pre (pre ++ old)%string -> replace old "" (pre ++ old)%string = pre.
Proof.
  intros N. unfold replace, occurs_only_after. induction pre as [|a pre IH]; intros H.
  - destruct old as [|b old]; [easy|]. change ("" ++ String b old)%string with (String b old). cbn [replace_from].
    pose proof (prefix_app (String b old) "") as P. rewrite sapp_nil in P. rewrite P.
    change ("" ++ ?x)%string with x. cbn [String.length]. rewrite Nat.sub_1_r. cbn [Nat.pred]. apply skip_all.
  - change (String a pre ++ old)%string with (String a (pre ++ old)) in *. cbn [replace_from].
    destruct (String.prefix old (String a (pre ++ old))) eqn:P.
    + exfalso. apply prefix_split in P. destruct P as [v P]. specialize (H "" v P). discriminate.
    + apply f_equal. apply IH. intros u v E. specialize (H (String a u) v). cbn in H. rewrite E in H. specialize (H eq_refl). congruence.
Qed.

(** C69, python files *)
Theorem python_file {C} (import : string -> string -> result C) dir base : free_of "/" base -> base <> "" -> ~ (exists b, base = String "." b) ->
  occurs_only_after ("/" ++ base ++ ".py")%string dir (dir ++ "/" ++ base ++ ".py")%string ->
  occurs_only_after ".py" base (base ++ ".py")%string ->
  load_model_from_python_file import (dir ++ "/" ++ base ++ ".py")%string = (dir, import base "model").
Proof.
  intros F N1 N2 O1 O2. unfold load_model_from_python_file.
  assert (F2 : free_of "/" (base ++ ".py")%string).
  { unfold free_of in *. rewrite L_app. intros H. apply in_app_or in H. destruct H as [H|H]; [auto|]. cbn in H. intuition discriminate. }
  assert (E0 : last_str (py_split "/" (dir ++ "/" ++ base ++ ".py")%string) = (base ++ ".py")%string).
  { change ("/" ++ base ++ ".py")%string with (String "/" (base ++ ".py")). rewrite split_app by assumption. apply last_last. }
  rewrite E0. cbv zeta.
  assert (E1 : replace ("/" ++ base ++ ".py") "" (dir ++ "/" ++ base ++ ".py") = dir) by (apply replace_end; [discriminate | exact O1]).
  assert (E2 : replace ".py" "" (base ++ ".py") = base) by (apply replace_end; [discriminate | exact O2]).
  rewrite E1, E2. apply (f_equal (pair dir)). destruct base as [|a b]; [easy|].
  destruct (Ascii.eqb_spec a "."); [|reflexivity]. subst. destruct N2; eauto.
Qed.
