(** Proofs about the configuration-built model. *)
From Coq Require Import Lia.
From Verif Require Export SpecConstruct.
From Verif Require Import NumFacts ArrFacts.
Open Scope R_scope.
Open Scope string_scope.
Open Scope list_scope.

(** ** dictionaries *)
Lemma sapp_assoc (a b c : string) : ((a ++ b) ++ c = a ++ (b ++ c))%string.
Proof. induction a; cbn; [reflexivity | now rewrite IHa]. Qed.
Lemma sapp_nil (a : string) : (a ++ "" = a)%string.
Proof. induction a; cbn; [reflexivity | now rewrite IHa]. Qed.

Lemma assoc_dset_same {A} k (v : A) d : assoc k (dset k v d) = Ok v.
Proof.
  induction d as [|[k' v'] d IH]; cbn; [now rewrite String.eqb_refl|].
  destruct (String.eqb k k') eqn:E; cbn; rewrite E; auto.
Qed.
Lemma assoc_dset_other {A} k k' (v : A) d : k <> k' -> assoc k (dset k' v d) = assoc k d.
Proof.
  intros N. induction d as [|[k2 v2] d IH]; cbn.
  - destruct (String.eqb_spec k k'); [congruence | reflexivity].
  - destruct (String.eqb_spec k' k2); cbn.
    + subst. destruct (String.eqb_spec k k2); [congruence | reflexivity].
    + destruct (String.eqb k k2); auto.
Qed.
Lemma assoc_in {A} k (v : A) d : assoc k d = Ok v -> In (k, v) d.
Proof.
  induction d as [|[k' v'] d IH]; cbn; [discriminate|].
  destruct (String.eqb_spec k k'); [intros [= ->]; subst; auto | auto].
Qed.
Lemma in_assoc {A} k (v : A) d : NoDup (keys d) -> In (k, v) d -> assoc k d = Ok v.
Proof.
  induction d as [|[k' v'] d IH]; cbn; [easy|]. intros N [[= -> ->]|I].
  - now rewrite String.eqb_refl.
  - apply NoDup_cons_iff in N. destruct N as [N1 N2].
    destruct (String.eqb_spec k k'); [|auto].
    subst. destruct N1. apply (in_map fst) in I. exact I.
Qed.
Lemma assoc_keys {A} k (d : dict A) : In k (keys d) <-> exists v, assoc k d = Ok v.
Proof.
  split.
  - induction d as [|[k' v'] d IH]; cbn; [easy|]. intros [->|I].
    + exists v'. now rewrite String.eqb_refl.
    + destruct (String.eqb k k'); eauto.
  - intros [v H]. apply assoc_in in H. now apply (in_map fst) in H.
Qed.
Lemma assoc_err {A} k (d : dict A) e : assoc k d = Err e -> e = KeyError /\ ~ In k (keys d).
Proof.
  induction d as [|[k' v'] d IH]; cbn; [intros [= <-]; auto|].
  destruct (String.eqb_spec k k'); [discriminate|]. intros H. destruct (IH H) as [-> N]. split; [reflexivity|].
  intros [H1|H1]; [congruence | auto].
Qed.
Lemma keys_dset {A} k (v : A) d x : In x (keys (dset k v d)) <-> x = k \/ In x (keys d).
Proof.
  rewrite !assoc_keys. destruct (string_dec x k) as [->|N].
  - rewrite assoc_dset_same. split; [auto | eauto].
  - rewrite (assoc_dset_other x k v d N). split; [auto|]. intros [H|H]; [congruence | auto].
Qed.
Lemma mem_keys {A} k (d : dict A) : mem k d = true <-> In k (keys d).
Proof.
  induction d as [|[k' v'] d IH]; cbn; [easy|]. rewrite Bool.orb_true_iff, IH, String.eqb_eq. intuition.
Qed.
Lemma dset_fresh {A} k (v : A) d : ~ In k (keys d) -> dset k v d = d ++ (k, v) :: nil.
Proof.
  induction d as [|[k' v'] d IH]; cbn; [reflexivity|]. intros N.
  destruct (String.eqb_spec k k'); [subst; tauto|]. rewrite IH; auto.
Qed.

(** ** steps *)
Lemma s_bind_ok {D A B} (m : Step D A) (f : A -> Step D B) s s' a : m s = (s', Ok a) -> s_bind m f s = f a s'.
Proof. unfold s_bind. intros ->. reflexivity. Qed.
Lemma s_bind_err {D A B} (m : Step D A) (f : A -> Step D B) s s' e : m s = (s', Err e) -> s_bind m f s = (s', Err e).
Proof. unfold s_bind. intros ->. reflexivity. Qed.

(** a step keeps an invariant *)
Definition keeps {D A} (I : cstate D -> Prop) (m : Step D A) : Prop := forall s, I s -> I (fst (m s)).
(** a step always raises in states satisfying an invariant *)
Definition fails {D A} (I : cstate D -> Prop) (m : Step D A) : Prop := forall s, I s -> exists e, snd (m s) = Err e.
Lemma keeps_bind {D A B} I (m : Step D A) (f : A -> Step D B) : keeps I m -> (forall a, keeps I (f a)) -> keeps I (s_bind m f).
Proof.
  intros H1 H2 s Hs. unfold s_bind. specialize (H1 s Hs). destruct (m s) as [s' [a|e]]; cbn in *; [apply H2|]; auto.
Qed.
Lemma keeps_get {D A} I (f : cstate D -> result A) : keeps I (s_get f). Proof. intros s Hs; exact Hs. Qed.
Lemma keeps_lift {D A} (I : cstate D -> Prop) (r : result A) : keeps I (s_lift r). Proof. intros s Hs; exact Hs. Qed.
Lemma keeps_ret {D A} (I : cstate D -> Prop) (a : A) : keeps I (s_ret a). Proof. intros s Hs; exact Hs. Qed.
Lemma keeps_raise {D A} (I : cstate D -> Prop) e : keeps I (@s_raise D A e). Proof. intros s Hs; exact Hs. Qed.
Lemma keeps_put {D} (I : cstate D -> Prop) f : (forall s, I s -> I (f s)) -> keeps I (s_put f). Proof. intros H s Hs; apply H, Hs. Qed.
Lemma keeps_each {D A B} I (f : A -> Step D B) l : (forall a, In a l -> keeps I (f a)) -> keeps I (s_each f l).
Proof.
  induction l as [|a l IH]; intros H; cbn; [apply keeps_ret|].
  apply keeps_bind; [apply H; left; reflexivity|]. intros b. apply keeps_bind; [apply IH; intros; apply H; now right|].
  intros; apply keeps_ret.
Qed.
Lemma fails_bind_l {D A B} I (m : Step D A) (f : A -> Step D B) : fails I m -> fails I (s_bind m f).
Proof. intros H s Hs. destruct (H s Hs) as [e He]. unfold s_bind. destruct (m s) as [s' r]. cbn in He. subst. exists e. reflexivity. Qed.
Lemma fails_bind_r {D A B} I (m : Step D A) (f : A -> Step D B) : keeps I m -> (forall a, fails I (f a)) -> fails I (s_bind m f).
Proof.
  intros K H s Hs. unfold s_bind. specialize (K s Hs). destruct (m s) as [s' [a|e]]; cbn in *; [apply H; auto | eauto].
Qed.
Lemma fails_each {D A B} I (f : A -> Step D B) l a : (forall a, In a l -> keeps I (f a)) -> In a l -> fails I (f a) -> fails I (s_each f l).
Proof.
  induction l as [|x l IH]; intros K Ha F; [easy|]. destruct Ha as [->|Ha]; cbn.
  - now apply fails_bind_l.
  - apply fails_bind_r; [apply K; left; reflexivity|]. intros b. apply fails_bind_l. apply IH; auto. intros; apply K; now right.
Qed.
Lemma fails_raise {D A} (I : cstate D -> Prop) e : fails I (@s_raise D A e). Proof. intros s Hs; exists e; reflexivity. Qed.

(** a list of reading steps that all succeed *)
Lemma s_each_ok {D A B} (f : A -> Step D B) (l : list A) (bs : list B) s :
  Forall2 (fun a b => f a s = (s, Ok b)) l bs -> s_each f l s = (s, Ok bs).
Proof.
  induction 1 as [|a b l bs H H0 IH]; [reflexivity|]. cbn.
  rewrite (s_bind_ok _ _ _ _ _ H), (s_bind_ok _ _ _ _ _ IH). reflexivity.
Qed.

Section Build.
Context {C D : Type}.
Implicit Types (w : world C D) (s : cstate D).

(** the state after sampling the priors *)
Lemma sample_priors_ok w rv priors vals sites : priors_give w rv priors vals sites -> is_dict priors ->
  forall s, exists h, (exists u, s_each (sample_prior w rv) priors s = (CState h (c_pops s) (c_sites s ++ sites), Ok u)) /\
    (forall k v, assoc k vals = Ok v -> assoc k h = Ok (Some v)) /\
    (forall k, ~ In k (keys priors) -> assoc k h = assoc k (c_hyper s)).
Proof.
  induction 1 as [|k e r v st vs ss Hk Hr IH]; intros ND s.
  - exists (c_hyper s). split; [|split; [discriminate | reflexivity]]. exists []. cbn. unfold s_ret. rewrite app_nil_r. destruct s; reflexivity.
  - unfold is_dict in ND. cbn in ND. apply NoDup_cons_iff in ND. destruct ND as [N1 N2].
    set (s1 := CState (dset k (Some v) (c_hyper s)) (c_pops s) (c_sites s ++ st)).
    assert (E1 : sample_prior w rv (k, e) s = (s1, Ok tt)).
    { unfold sample_prior. cbn [fst snd]. destruct e as [c ps|c]; cbn in Hk.
      - destruct Hk as [d [Hd [-> ->]]]. rewrite Hd. reflexivity.
      - destruct Hk as [-> ->]. unfold s_put, s1. rewrite app_nil_r. reflexivity. }
    destruct (IH N2 s1) as [h [[u Hu] [H1 H2]]].
    exists h. split; [|split].
    + exists (tt :: u). cbn [s_each]. rewrite (s_bind_ok _ _ _ _ _ E1), (s_bind_ok _ _ _ _ _ Hu).
      unfold s_ret. subst s1. cbn. rewrite app_assoc. reflexivity.
    + intros k' v'. cbn. destruct (String.eqb_spec k' k); [|apply H1].
      intros [= ->]. subst k'. rewrite H2 by exact N1. unfold s1. cbn. apply assoc_dset_same.
    + intros k' N. cbn in N. rewrite H2 by tauto. unfold s1; cbn. apply assoc_dset_other. intros ->. tauto.
Qed.

Lemma fold_dset {A} (kv : dict A) : forall d, NoDup (keys d ++ keys kv) ->
  fold_left (fun d kv => dset (fst kv) (snd kv) d) kv d = d ++ kv.
Proof.
  induction kv as [|[k v] kv IH]; intros d N; cbn; [now rewrite app_nil_r|].
  cbn in N. pose proof (NoDup_remove_2 _ _ _ N) as N2. rewrite dset_fresh by (intro I; apply N2, in_or_app; now left).
  rewrite IH.
  - rewrite <- app_assoc. reflexivity.
  - unfold keys. rewrite map_app. cbn. rewrite <- app_assoc. exact N.
Qed.

(** reading the keyword arguments *)
Lemma lookups_ok (vals : dict hval) prefix ps kw s :
  (forall k v, assoc k vals = Ok v -> assoc k (c_hyper s) = Ok (Some v)) ->
  keyword_args vals prefix ps kw -> lookups prefix ps s = (s, Ok kw).
Proof.
  intros Hv [ND F]. unfold lookups.
  assert (E : s_each (fun p => hyper (prefix ++ "_" ++ p)%string) ps s = (s, Ok (map snd kw))).
  { apply s_each_ok. clear ND. induction F as [|p kv ps kw [_ H] F IH]; cbn [map]; constructor; auto.
    unfold hyper, s_get. rewrite (Hv _ _ H). reflexivity. }
  rewrite (s_bind_ok _ _ _ _ _ E). unfold s_ret. apply (f_equal (fun x => (s, Ok x))).
  assert (K : combine ps (map snd kw) = kw).
  { clear E ND. induction F as [|p [a b] ps kw [H _] F IH]; [reflexivity|]. cbn in *. subst. now rewrite IH. }
  rewrite K. rewrite (fold_dset kw []); [reflexivity|]. cbn.
  replace (keys kw) with ps; [exact ND|]. clear E K ND. induction F as [|p [a b] ps kw [H _] F IH]; unfold keys in *; cbn in *; congruence.
Qed.

Lemma keys_kw vals prefix ps kw : keyword_args vals prefix ps kw -> keys kw = ps.
Proof. intros [_ F]. induction F as [|p [a b] ps kw [H _] F IH]; unfold keys in *; cbn in *; congruence. Qed.

Lemma Forall2_nth_intro {A B} (P : A -> B -> Prop) l m : length l = length m ->
  (forall i a b, nth_error l i = Some a -> nth_error m i = Some b -> P a b) -> Forall2 P l m.
Proof.
  revert m; induction l as [|a l IH]; intros [|b m] L H; cbn in L; try lia; constructor.
  - apply (H O); reflexivity.
  - apply IH; [lia|]. intros i x y Hx Hy. apply (H (S i)); assumption.
Qed.

(** building one parameter's distribution *)
Lemma build_entry_ok w vals grid k e d iid s :
  (forall k v, assoc k vals = Ok v -> assoc k (c_hyper s) = Ok (Some v)) ->
  configured w vals grid k e d ->
  build_entry w grid k e iid s = (CState (c_hyper s) (dset k (Some d) (c_pops s)) (c_sites s), Ok iid).
Proof.
  intros Hv Hc. destruct e as [c ps|c mc mps comps cps|v|y]; cbn in Hc; try easy.
  - destruct Hc as [kw [Hkw Hd]]. cbn [build_entry].
    rewrite (s_bind_ok _ _ _ _ _ (lookups_ok _ _ _ _ _ Hv Hkw)).
    assert (E : w_call w c (if String.eqb k "redshift" then dset "grid" (HGrid grid) kw else kw) = Ok d).
    { destruct (String.eqb k "redshift"); [|exact Hd]. destruct Hd as [N Hd].
      rewrite dset_fresh; [exact Hd|]. now rewrite (keys_kw _ _ _ _ Hkw). }
    cbv zeta. rewrite (s_bind_ok (s_lift _) _ s s d); [|unfold s_lift; now rewrite E].
    reflexivity.
  - destruct Hc as [ds [kw [md [L1 [L2 [Hc [Hkw [Hmd Hd]]]]]]]]. cbn [build_entry].
    assert (E : s_each (build_component w k comps cps) (seq 0 (length comps)) s = (s, Ok ds)).
    { apply s_each_ok. apply Forall2_nth_intro; [now rewrite seq_length|].
      intros i a d' Ha Hd'.
      assert (Hi : (i < length comps)%nat) by (rewrite <- L2; apply nth_error_Some; congruence).
      assert (a = i). { apply (nth_error_nth _ _ O) in Ha. rewrite seq_nth in Ha by assumption. cbn in Ha. congruence. }
      subst a.
      destruct (nth_error comps i) as [c'|] eqn:E1; [|apply nth_error_None in E1; lia].
      destruct (nth_error cps i) as [ps|] eqn:E2; [|apply nth_error_None in E2; lia].
      destruct (Hc i c' ps d' E1 E2 Hd') as [kw' [Hkw' Hcall]].
      unfold build_component. rewrite (s_bind_ok (s_lift _) _ s s c'); [|unfold s_lift; now rewrite E1].
      rewrite (s_bind_ok (s_lift _) _ s s ps); [|unfold s_lift; now rewrite E2].
      rewrite (s_bind_ok _ _ _ _ _ (lookups_ok _ _ _ _ _ Hv Hkw')). unfold s_lift. now rewrite Hcall. }
    rewrite (s_bind_ok _ _ _ _ _ E), (s_bind_ok _ _ _ _ _ (lookups_ok _ _ _ _ _ Hv Hkw)).
    rewrite (s_bind_ok (s_lift _) _ s s md); [|unfold s_lift; now rewrite Hmd].
    rewrite (s_bind_ok (s_lift _) _ s s d); [|unfold s_lift; now rewrite Hd].
    reflexivity.
Qed.

Lemma build_entries_ok w vals grid models pops : population_is w vals grid models pops -> is_dict models ->
  forall s iid, (forall k v, assoc k vals = Ok v -> assoc k (c_hyper s) = Ok (Some v)) ->
  exists ps, build_entries w grid models iid s = (CState (c_hyper s) ps (c_sites s), Ok iid) /\
    (forall k d, assoc k pops = Ok d -> assoc k ps = Ok (Some d)) /\
    (forall k, ~ In k (keys models) -> assoc k ps = assoc k (c_pops s)).
Proof.
  induction 1 as [|[k e] [k' d] models pops [Hk Hc] Hr IH]; intros ND s iid Hv.
  - exists (c_pops s). split; [destruct s; reflexivity|]. split; [discriminate|reflexivity].
  - cbn in Hk, Hc. subst k'. unfold is_dict in ND. cbn in ND. apply NoDup_cons_iff in ND. destruct ND as [N1 N2].
    cbn [build_entries]. rewrite (s_bind_ok _ _ _ _ _ (build_entry_ok _ _ _ _ _ _ iid s Hv Hc)).
    destruct (IH N2 (CState (c_hyper s) (dset k (Some d) (c_pops s)) (c_sites s)) iid Hv) as [ps [E [H1 H2]]].
    exists ps. split; [exact E|]. split.
    + intros k1 d1. cbn. destruct (String.eqb_spec k1 k); [|apply H1]. intros [= ->]. subst.
      rewrite H2 by exact N1. cbn. apply assoc_dset_same.
    + intros k1 N. cbn in N. rewrite H2 by tauto. cbn. apply assoc_dset_other. intros ->. tauto.
Qed.

(** sums of columns *)
Lemma map_nth_seq {A B} (f : A -> B) (l : list A) d : map f l = map (fun j => f (nth j l d)) (seq 0 (length l)).
Proof.
  induction l as [|a l IH]; [reflexivity|]. cbn. rewrite <- seq_shift, map_map. now rewrite IH.
Qed.
Lemma map2_map_same {A B X Y} (g : A -> B -> X) (f1 : Y -> A) (f2 : Y -> B) l : map2 g (map f1 l) (map f2 l) = map (fun y => g (f1 y) (f2 y)) l.
Proof. induction l as [|a l IH]; cbn; [reflexivity | now rewrite IH]. Qed.

Lemma sum1_columns w (pops : dict D) injs n :
  Forall (fun kd => has_column n injs (fst kd)) pops ->
  sum1 n (map (fun kd => map (w_logp w (snd kd)) (match assoc (fst kd) injs with Ok l => l | Err _ => [] end)) pops) =
  map (fun j => nsum (map (fun kd => w_logp w (snd kd) (at1 injs (fst kd) j)) pops)) (seq 0 n).
Proof.
  unfold sum1. induction 1 as [|[k d] pops [l [Hl L]] F IH]; cbn [map fold_right nsum].
  - rewrite <- (seq_length n 0) at 1. generalize (seq 0 n). intros q. induction q; cbn; [reflexivity | now rewrite IHq].
  - rewrite IH. cbn [fst snd] in *. rewrite Hl, (map_nth_seq _ l NaN), L, map2_map_same.
    apply map_ext. intros j. unfold at1 at 2. now rewrite Hl.
Qed.

Lemma injection_weights w (pops : dict D) injs n :
  Forall (fun kd => has_column n injs (fst kd)) pops -> has_column n injs "prior" ->
  exists ip, assoc "prior" injs = Ok ip /\
  weights1 ip (map (fun kd => map (w_logp w (snd kd)) (match assoc (fst kd) injs with Ok l => l | Err _ => [] end)) pops)
  = Ok (weights_of_injections w pops injs n).
Proof.
  intros F [ip [Hip L]]. exists ip. split; [exact Hip|]. unfold weights1.
  replace (forallb _ _) with true.
  - apply f_equal. rewrite L, sum1_columns by assumption.
    rewrite (map_nth_seq nlog ip NaN), L, map2_map_same. unfold weights_of_injections, log_weight.
    apply map_ext. intros j. unfold at1 at 3. now rewrite Hip.
  - symmetry. apply forallb_forall. intros l Hl. apply in_map_iff in Hl. destruct Hl as [[k d] [<- Hk]].
    rewrite Forall_forall in F. destruct (F _ Hk) as [l [E El]]. cbn in *. rewrite E, map_length, L, El. apply Nat.eqb_refl.
Qed.

Lemma map_rows_seq {A} (f : num -> A) (rows : list (list num)) E n : length rows = E -> Forall (fun r => length r = n) rows ->
  map (map f) rows = map (fun i => map (fun j => f (nth j (nth i rows []) NaN)) (seq 0 n)) (seq 0 E).
Proof.
  intros L F. rewrite (map_nth_seq (map f) rows []), L. apply map_ext_in. intros i Hi. apply in_seq in Hi.
  rewrite Forall_forall in F. rewrite (map_nth_seq f _ NaN). rewrite (F (nth i rows [])); [reflexivity|]. apply nth_In. lia.
Qed.

Lemma sum2_tables w (pops : dict D) samps E n (rows0 : list (list num)) :
  length rows0 = E -> Forall (fun r => length r = n) rows0 ->
  Forall (fun kd => has_table E n samps (fst kd)) pops ->
  fold_right (map2 (map2 nadd)) (map (map (fun _ => Fin 0)) rows0)
    (map a_rows (map (fun kd => amap (w_logp w (snd kd)) (match assoc (fst kd) samps with Ok l => l | Err _ => Arr2 0 [] end)) pops)) =
  map (fun i => map (fun j => nsum (map (fun kd => w_logp w (snd kd) (at2 samps (fst kd) i j)) pops)) (seq 0 n)) (seq 0 E).
Proof.
  intros L0 F0. induction 1 as [|[k d] pops [a [Ha [Lc [Lr Fr]]]] F IH]; cbn [map fold_right nsum].
  - rewrite (map_rows_seq _ rows0 E n); auto.
  - rewrite IH. cbn [fst snd] in *. rewrite Ha. cbn [amap a_rows]. rewrite (map_rows_seq _ _ E n) by assumption.
    rewrite map2_map_same. apply map_ext. intros i. rewrite map2_map_same. apply map_ext. intros j.
    unfold at2 at 2. now rewrite Ha.
Qed.

Lemma sample_weights w (pops : dict D) samps E n :
  Forall (fun kd => has_table E n samps (fst kd)) pops -> has_table E n samps "prior" ->
  exists pp, assoc "prior" samps = Ok pp /\
  weights2 pp (map (fun kd => amap (w_logp w (snd kd)) (match assoc (fst kd) samps with Ok l => l | Err _ => Arr2 0 [] end)) pops)
  = Ok (weights_of_samples w pops samps E n).
Proof.
  intros F [pp [Hp [Lc [Lr Fr]]]]. exists pp. split; [exact Hp|]. unfold weights2.
  replace (forallb _ _) with true.
  - rewrite Lc, (sum2_tables w pops samps E n) by assumption.
    rewrite (map_rows_seq nlog _ E n) by assumption. unfold weights_of_samples, log_weight.
    apply (f_equal (fun x => Ok (Arr2 n x))). rewrite map2_map_same. apply map_ext. intros i. rewrite map2_map_same. apply map_ext. intros j.
    unfold at2 at 3. now rewrite Hp.
  - symmetry. apply forallb_forall. intros l Hl. apply in_map_iff in Hl. destruct Hl as [[k d] [<- Hk]].
    rewrite Forall_forall in F. destruct (F _ Hk) as [a [Ea [A1 [A2 A3]]]]. cbn [fst snd] in *. rewrite Ea. cbn [amap a_cols a_rows].
    rewrite map_length, A1, A2, Lc, Lr, !Nat.eqb_refl. reflexivity.
Qed.

Lemma population_keys w vals grid models pops : population_is w vals grid models pops -> keys pops = keys models.
Proof. induction 1 as [|[k e] [k' d] models pops [Hk _] Hr IH]; unfold keys in *; cbn in *; congruence. Qed.

Lemma each_logp {X Y} w (pops : dict D) (f : num -> num) (data : dict X) (g : D -> X -> Y) (dflt : X) s :
  NoDup (keys pops) ->
  (forall k d, assoc k pops = Ok d -> assoc k (c_pops s) = Ok (Some d)) ->
  Forall (fun kd => exists x, assoc (fst kd) data = Ok x) pops ->
  s_each (fun k => step d <- pop_of k; step x <- s_lift (assoc k data); s_ret (g d x)) (keys pops) s =
  (s, Ok (map (fun kd => g (snd kd) (match assoc (fst kd) data with Ok x => x | Err _ => dflt end)) pops)).
Proof.
  intros ND Hp F. apply s_each_ok.
  assert (G : forall l, incl l pops -> Forall2 (fun k y => s_bind (pop_of k) (fun d => s_bind (s_lift (assoc k data)) (fun x => s_ret (g d x))) s = (s, Ok y))
    (keys l) (map (fun kd => g (snd kd) (match assoc (fst kd) data with Ok x => x | Err _ => dflt end)) l)).
  { induction l as [|[k d] l IH]; intros I; unfold keys; cbn [map fst snd]; constructor; [|apply IH; intros x Hx; apply I; now right].
    assert (Hin : In (k, d) pops) by (apply I; now left).
    rewrite Forall_forall in F. destruct (F _ Hin) as [x Hx]. cbn in Hx.
    unfold pop_of. rewrite (s_bind_ok _ _ s s d).
    - rewrite (s_bind_ok _ _ s s x); [|unfold s_lift; now rewrite Hx]. rewrite Hx. reflexivity.
    - unfold s_get. rewrite (Hp k d); [reflexivity|]. now apply in_assoc. }
  apply G, incl_refl.
Qed.

(** C66: the configured population is what is evaluated, whatever happened before *)
Theorem population_ok w rv models priors grid samps injs E n ni vals sites pops zd vt s :
  is_dict models -> is_dict priors ->
  priors_give w rv priors vals sites ->
  population_is w vals grid models pops ->
  Forall (has_table E n samps) ("prior" :: keys models) -> Forall (has_column ni injs) ("prior" :: keys models) ->
  assoc "redshift" pops = Ok zd -> w_norm w zd = Some vt ->
  exists s', population w rv models priors grid samps injs s =
    (s', Ok (weights_of_samples w pops samps E n, weights_of_injections w pops injs ni, vt)) /\ c_sites s' = c_sites s ++ sites.
Proof.
  intros Dm Dp Hpr Hpop Hs Hi Hz Hvt.
  inversion Hs as [|? ? Hs1 Hs2]; subst. inversion Hi as [|? ? Hi1 Hi2]; subst.
  pose proof (population_keys _ _ _ _ _ Hpop) as K.
  assert (NP : NoDup (keys pops)) by (rewrite K; exact Dm).
  destruct (sample_priors_ok _ _ _ _ _ Hpr Dp s) as [h [[u Hu] [H1 H2]]].
  destruct (build_entries_ok _ _ _ _ _ Hpop Dm (CState h (c_pops s) (c_sites s ++ sites)) [] H1) as [ps [E1 [H3 H4]]].
  cbn [c_hyper c_sites] in E1.
  set (s2 := CState h ps (c_sites s ++ sites)) in *.
  assert (Fi : Forall (fun kd => has_column ni injs (fst kd)) pops).
  { rewrite <- K in Hi2. apply Forall_forall. intros kd Hkd. rewrite Forall_forall in Hi2. apply Hi2. now apply in_map. }
  assert (Fs : Forall (fun kd => has_table E n samps (fst kd)) pops).
  { rewrite <- K in Hs2. apply Forall_forall. intros kd Hkd. rewrite Forall_forall in Hs2. apply Hs2. now apply in_map. }
  destruct (injection_weights w pops injs ni Fi Hi1) as [ip [Eip Eiw]].
  destruct (sample_weights w pops samps E n Fs Hs1) as [pp [Epp Epw]].
  exists s2. split; [|reflexivity]. unfold population.
  rewrite (s_bind_ok _ _ _ _ _ Hu), (s_bind_ok _ _ _ _ _ E1).
  rewrite (s_bind_ok (s_each share []) _ s2 s2 []) by reflexivity.
  rewrite <- K.
  rewrite (s_bind_ok _ _ _ _ _ (each_logp w pops (fun x => x) injs (fun d x => map (w_logp w d) x) [] s2 NP H3
    ltac:(eapply Forall_impl; [|exact Fi]; intros a [l [Hl _]]; eauto))).
  rewrite (s_bind_ok (s_lift (assoc "prior" injs)) _ s2 s2 ip); [|unfold s_lift; now rewrite Eip].
  rewrite (s_bind_ok (s_lift (weights1 ip _)) _ s2 s2 (weights_of_injections w pops injs ni)); [|unfold s_lift; now rewrite Eiw].
  rewrite (s_bind_ok _ _ _ _ _ (each_logp w pops (fun x => x) samps (fun d x => amap (w_logp w d) x) (Arr2 0 []) s2 NP H3
    ltac:(eapply Forall_impl; [|exact Fs]; intros a [l [Hl _]]; eauto))).
  rewrite (s_bind_ok (s_lift (assoc "prior" samps)) _ s2 s2 pp); [|unfold s_lift; now rewrite Epp].
  rewrite (s_bind_ok (s_lift (weights2 pp _)) _ s2 s2 (weights_of_samples w pops samps E n)); [|unfold s_lift; now rewrite Epw].
  rewrite (s_bind_ok (pop_of "redshift") _ s2 s2 zd); [|unfold pop_of, s_get; cbn [c_pops s2]; now rewrite (H3 _ _ Hz)].
  rewrite (s_bind_ok (s_lift _) _ s2 s2 vt); [reflexivity|]. unfold s_lift. now rewrite Hvt.
Qed.

Theorem call_model_ok w fl rv dr models priors grid samps injs E n ni vals sites pops zd vt Ninj Nobs Tobs s :
  is_dict models -> is_dict priors ->
  priors_give w rv priors vals sites ->
  population_is w vals grid models pops ->
  Forall (has_table E n samps) ("prior" :: keys models) -> Forall (has_column ni injs) ("prior" :: keys models) ->
  assoc "redshift" pops = Ok zd -> w_norm w zd = Some vt ->
  c_sites (fst (call_model w fl models priors grid rv dr samps injs Ninj Nobs Tobs s)) = sites /\
  snd (call_model w fl models priors grid rv dr samps injs Ninj Nobs Tobs s) =
    hierarchical_likelihood (likelihood_args fl models samps injs Ninj Nobs Tobs vt) dr
      (PEOne (weights_of_samples w pops samps E n)) (weights_of_injections w pops injs ni).
Proof.
  intros H1 H2 H3 H4 H5 H6 H7 H8.
  destruct (population_ok w rv models priors grid samps injs E n ni vals sites pops zd vt (CState (c_hyper s) (c_pops s) [])) as [s' [Es Ss]]; auto.
  unfold call_model. rewrite Es. split; [exact Ss | reflexivity].
Qed.

(** ** exceptions *)
Variables (models : dict (model_entry C)) (priors : dict (prior_entry C)).

(** shared parameters never get a distribution *)
Definition unshared (s : cstate D) : Prop := forall k v d, In (k, EIid v) models -> assoc k (c_pops s) <> Ok (Some d).
(** only configured hyper-parameters are ever defined *)
Definition only_configured (s : cstate D) : Prop := forall k, In k (keys (c_hyper s)) -> In k (keys priors).
Definition Inv (s : cstate D) : Prop := unshared s /\ only_configured s.

Lemma lookups_keeps I prefix ps : keeps I (@lookups D prefix ps).
Proof.
  unfold lookups. apply keeps_bind; [|intros; apply keeps_ret]. apply keeps_each. intros; apply keeps_get.
Qed.
Lemma sample_keeps w rv kv : In kv priors -> keeps Inv (sample_prior w rv kv).
Proof.
  intros Hin. assert (K : forall s v st, Inv s -> Inv (CState (dset (fst kv) v (c_hyper s)) (c_pops s) st)).
  { intros s v st [H1 H2]. split; [exact H1|]. intros k Hk. cbn in Hk. apply keys_dset in Hk. destruct Hk as [->|Hk]; [|auto].
    now apply in_map. }
  unfold sample_prior. destruct (snd kv) as [c ps|v]; [|apply keeps_put; intros; now apply K].
  destruct (w_prior w c ps) as [d|[]]; try apply keeps_raise; apply keeps_put; intros s Hs; cbv zeta; cbn [c_hyper c_pops c_sites]; now apply K.
Qed.
Lemma component_keeps I w k comps cps i : keeps I (build_component (D:=D) w k comps cps i).
Proof.
  unfold build_component. apply keeps_bind; [apply keeps_lift|]. intros c. apply keeps_bind; [apply keeps_lift|]. intros ps.
  apply keeps_bind; [apply lookups_keeps|]. intros; apply keeps_lift.
Qed.
Lemma set_pop_keeps k e (d : option D) : is_dict models -> In (k, e) models -> (forall v, e <> EIid v) -> keeps Inv (set_pop k d).
Proof.
  intros Dm Hin Hne. apply keeps_put. intros s [H1 H2]. split; [|exact H2].
  intros k' v d' Hk'. cbn. destruct (string_dec k' k) as [->|N].
  - apply (in_assoc _ _ _ Dm) in Hin. apply (in_assoc _ _ _ Dm) in Hk'. rewrite Hin in Hk'. injection Hk' as ->. now destruct (Hne v).
  - rewrite assoc_dset_other by assumption. eapply H1; eauto.
Qed.
Lemma entry_keeps w grid k e iid : is_dict models -> In (k, e) models -> keeps Inv (build_entry w grid k e iid).
Proof.
  intros Dm Hin. destruct e as [c ps|c mc mps comps cps|v|y]; cbn [build_entry].
  - apply keeps_bind; [apply lookups_keeps|]. intros kw. cbv zeta. apply keeps_bind; [apply keeps_lift|]. intros d.
    apply keeps_bind; [eapply set_pop_keeps; eauto; discriminate|]. intros; apply keeps_ret.
  - apply keeps_bind; [apply keeps_each; intros; apply component_keeps|]. intros ds.
    apply keeps_bind; [apply lookups_keeps|]. intros kw. apply keeps_bind; [apply keeps_lift|]. intros md.
    apply keeps_bind; [apply keeps_lift|]. intros d.
    apply keeps_bind; [eapply set_pop_keeps; eauto; discriminate|]. intros; apply keeps_ret.
  - apply keeps_ret.
  - apply keeps_raise.
Qed.
Lemma entries_keeps w grid ms : is_dict models -> incl ms models -> forall iid, keeps Inv (build_entries w grid ms iid).
Proof.
  intros Dm. induction ms as [|[k e] ms IH]; intros I iid; cbn [build_entries]; [apply keeps_ret|].
  apply keeps_bind; [apply entry_keeps; auto; apply I; now left|]. intros iid'. apply IH. intros x Hx; apply I; now right.
Qed.
(** the iid mapping only ever points at shared parameters *)
Definition iid_ok (iid : dict string) : Prop := Forall (fun sp => exists v, In (snd sp, EIid v) models) iid.
Lemma dset_Forall {A} (P : string * A -> Prop) k v d : (forall k', P (k', v)) -> Forall P d -> Forall P (dset k v d).
Proof.
  intros Hv. induction 1 as [|[k' v'] d H F IH]; cbn; [constructor; auto|].
  destruct (String.eqb k k'); constructor; auto.
Qed.
Lemma entry_iid w grid k e iid s : In (k, e) models -> iid_ok iid -> forall s' iid', build_entry w grid k e iid s = (s', Ok iid') -> iid_ok iid'.
Proof.
  intros Hin Hi s' iid' H. destruct e as [c ps|c mc mps comps cps|v|y]; cbn [build_entry] in H.
  - unfold s_bind in H. destruct (lookups k ps s) as [s1 [kw|]]; [|discriminate]. cbn in H.
    destruct (w_call _ _ _); [|discriminate]. cbn in H. now injection H as _ <-.
  - unfold s_bind in H. destruct (s_each _ _ s) as [s1 [ds|]]; [|discriminate]. destruct (lookups _ _ s1) as [s2 [kw|]]; [|discriminate].
    cbn in H. destruct (w_call _ _ _); [|discriminate]. cbn in H. destruct (w_mix _ _ _ _); [|discriminate]. cbn in H. now injection H as _ <-.
  - cbn in H. injection H as _ <-. apply dset_Forall; [|exact Hi]. intros k'. cbn. eauto.
  - discriminate.
Qed.
Lemma entries_iid w grid ms : incl ms models -> forall iid s, iid_ok iid -> forall s' iid', build_entries w grid ms iid s = (s', Ok iid') -> iid_ok iid'.
Proof.
  induction ms as [|[k e] ms IH]; intros I iid s Hi s' iid'; cbn [build_entries].
  - intros [= _ <-]. exact Hi.
  - unfold s_bind. destruct (build_entry w grid k e iid s) as [s1 [i1|]] eqn:E1; [|discriminate].
    apply IH; [intros x Hx; apply I; now right|]. eapply entry_iid; eauto. apply I; now left.
Qed.
Lemma share_keeps sp : (exists v, In (snd sp, EIid v) models) -> keeps Inv (share sp).
Proof.
  intros [v Hv] s Hs. unfold share, s_bind, s_get. destruct (assoc (snd sp) (c_pops s)) as [d|e] eqn:E; [|exact Hs].
  destruct Hs as [H1 H2]. cbn. split; [|exact H2]. intros k v' d' Hk. cbn. destruct (string_dec k (fst sp)) as [->|N].
  - rewrite assoc_dset_same. intros [= ->]. exact (H1 _ _ _ Hv E).
  - rewrite assoc_dset_other by assumption. eapply H1; eauto.
Qed.

Definition rest_of (w : world C D) (samps : dict arr2) (injs : dict (list num)) : Step D (arr2 * list num * num) :=
  step ips <- s_each (fun k => step d <- pop_of k; step x <- s_lift (assoc k injs); s_ret (map (w_logp w d) x)) (keys models);
  step ip <- s_lift (assoc "prior" injs);
  step iw <- s_lift (weights1 ip ips);
  step pps <- s_each (fun k => step d <- pop_of k; step x <- s_lift (assoc k samps); s_ret (amap (w_logp w d) x)) (keys models);
  step pp <- s_lift (assoc "prior" samps);
  step pw <- s_lift (weights2 pp pps);
  step z <- pop_of "redshift";
  step vt <- s_lift (match w_norm w z with Some v => Ok v | None => Err AttributeError end);
  s_ret (pw, iw, vt).
Ltac keep := repeat first [apply keeps_lift | apply keeps_ret | apply keeps_get | apply keeps_bind | apply keeps_each
  | match goal with |- forall _, _ => intro end].
Lemma rest_keeps I w samps injs : keeps I (rest_of w samps injs).
Proof. unfold rest_of, pop_of. keep. Qed.
Lemma population_keeps w rv grid samps injs : is_dict models -> keeps Inv (population w rv models priors grid samps injs).
Proof.
  intros Dm. unfold population. apply keeps_bind; [apply keeps_each; intros; now apply sample_keeps|]. intros _.
  intros s Hs. unfold s_bind at 1. pose proof (entries_keeps w grid models Dm (incl_refl _) [] s Hs) as K1.
  destruct (build_entries w grid models [] s) as [s1 [iid|e]] eqn:E1; [|exact K1]. cbn in K1.
  assert (Hi : iid_ok iid) by (eapply entries_iid; [apply incl_refl | constructor | exact E1]).
  clear E1. revert s1 K1.
  apply keeps_bind.
  - apply keeps_each. intros sp Hsp. apply share_keeps. unfold iid_ok in Hi. rewrite Forall_forall in Hi. auto.
  - intros _. apply (rest_keeps Inv w samps injs).
Qed.

Lemma reachable_inv s : is_dict models -> reachable models priors s -> Inv s.
Proof.
  intros Dm. induction 1 as [grid s H|w fl grid rv dr samps injs Ninj Nobs Tobs s Hr IH].
  - unfold construct_hierarchical_model in H. destruct (if mem _ _ then _ else _) as [g|]; cbn [rbind] in H; [|discriminate]. injection H as _ <-. split.
    + intros k v d _. cbn. intros H. apply assoc_in in H. apply in_map_iff in H. destruct H as [? [[= ]]].
    + intros k. cbn. unfold keys at 1. rewrite map_map. cbn. rewrite map_id. auto.
  - unfold call_model. destruct (population _ _ _ _ _ _ _ _) as [s' r] eqn:E. cbn.
    change s' with (fst (s', r)). rewrite <- E. apply population_keeps; [exact Dm|].
    destruct IH as [H1 H2]. split; [exact H1 | exact H2].
Qed.

(** the call raises when some step must *)
Lemma population_fails_build w rv grid samps injs :
  (forall iid, fails Inv (build_entries w grid models iid)) -> fails Inv (population w rv models priors grid samps injs).
Proof.
  intros F. unfold population. apply fails_bind_r; [apply keeps_each; intros; now apply sample_keeps|]. intros _.
  apply fails_bind_l. apply F.
Qed.
Lemma entries_fail w grid ms k e : is_dict models -> incl ms models -> In (k, e) ms -> (forall iid, fails Inv (build_entry w grid k e iid)) ->
  forall iid, fails Inv (build_entries w grid ms iid).
Proof.
  intros Dm. induction ms as [|[k' e'] ms IH]; intros I Hin F iid; [easy|]. cbn [build_entries]. destruct Hin as [[= -> ->]|Hin].
  - apply fails_bind_l, F.
  - apply fails_bind_r; [apply entry_keeps; auto; apply I; now left|]. intros iid'. apply IH; auto. intros x Hx; apply I; now right.
Qed.
Lemma lookups_fail prefix ps p : In p ps -> ~ In (prefix ++ "_" ++ p)%string (keys priors) -> fails Inv (lookups prefix ps).
Proof.
  intros Hp N. unfold lookups. apply fails_bind_l. eapply fails_each; [intros; apply keeps_get | exact Hp |].
  intros s [_ Hs]. unfold hyper, s_get. cbn. destruct (assoc _ (c_hyper s)) as [o|e] eqn:E; [|eauto].
  exfalso. apply N, Hs, assoc_keys. eauto.
Qed.
Lemma entry_fails_missing w grid k e key : looked_up k e key -> ~ In key (keys priors) -> forall iid, fails Inv (build_entry w grid k e iid).
Proof.
  intros L N iid. destruct e as [c ps|c mc mps comps cps|v|y]; cbn in L; try easy; cbn [build_entry].
  - destruct L as [p [Hp ->]]. apply fails_bind_l. eapply lookups_fail; eauto.
  - destruct L as [[p [Hp ->]]|[i [ps [p [Hi [Hps [Hp ->]]]]]]].
    + apply fails_bind_r; [apply keeps_each; intros; apply component_keeps|]. intros ds. apply fails_bind_l.
      eapply lookups_fail; [exact Hp|]. rewrite sapp_assoc. exact N.
    + apply fails_bind_l. eapply fails_each; [intros; apply component_keeps | apply in_seq; split; [apply Nat.le_0_l | exact Hi] |].
      unfold build_component. apply fails_bind_r; [apply keeps_lift|]. intros c'.
      rewrite Hps. intros s Hs. unfold s_bind at 1, s_lift at 1.
      revert s Hs. apply fails_bind_l. eapply lookups_fail; [exact Hp|]. rewrite !sapp_assoc. exact N.
Qed.

Lemma call_raises w fl rv dr grid samps injs Ninj Nobs Tobs s : is_dict models -> reachable models priors s ->
  fails Inv (population w rv models priors grid samps injs) ->
  raises (snd (call_model w fl models priors grid rv dr samps injs Ninj Nobs Tobs s)).
Proof.
  intros Dm Hr F. apply reachable_inv in Hr; [|exact Dm]. unfold call_model.
  destruct (F (CState (c_hyper s) (c_pops s) [])) as [e He]; [exact Hr|].
  destruct (population _ _ _ _ _ _ _ _) as [s' r]. cbn in *. subst. exists e. reflexivity.
Qed.

Theorem missing_hyper_raises w fl rv dr grid samps injs Ninj Nobs Tobs s k e key : is_dict models -> reachable models priors s ->
  In (k, e) models -> looked_up k e key -> ~ In key (keys priors) ->
  raises (snd (call_model w fl models priors grid rv dr samps injs Ninj Nobs Tobs s)).
Proof.
  intros Dm Hr Hin L N. apply call_raises; auto. apply population_fails_build. eapply entries_fail; eauto using incl_refl.
  intros; eapply entry_fails_missing; eauto.
Qed.
Theorem unknown_raises w fl rv dr grid samps injs Ninj Nobs Tobs s k y : is_dict models -> reachable models priors s ->
  In (k, EOther y) models ->
  raises (snd (call_model w fl models priors grid rv dr samps injs Ninj Nobs Tobs s)).
Proof.
  intros Dm Hr Hin. apply call_raises; auto. apply population_fails_build. eapply entries_fail; eauto using incl_refl.
  intros; apply fails_raise.
Qed.

Lemma pop_of_fails k v : In (k, EIid v) models -> fails Inv (@pop_of D k).
Proof.
  intros Hin s [Hs _]. unfold pop_of, s_get. cbn. destruct (assoc k (c_pops s)) as [[d|]|e] eqn:E; eauto. now destruct (Hs _ _ _ Hin E).
Qed.
Theorem shared_raises w fl rv dr grid samps injs Ninj Nobs Tobs s k v : is_dict models -> reachable models priors s ->
  In (k, EIid v) models ->
  raises (snd (call_model w fl models priors grid rv dr samps injs Ninj Nobs Tobs s)).
Proof.
  intros Dm Hr Hin. apply call_raises; auto. unfold population.
  apply fails_bind_r; [apply keeps_each; intros; now apply sample_keeps|]. intros _.
  intros s0 Hs. unfold s_bind at 1. pose proof (entries_keeps w grid models Dm (incl_refl _) [] s0 Hs) as K1.
  destruct (build_entries w grid models [] s0) as [s1 [iid|e]] eqn:E1; [|exists e; reflexivity]. cbn in K1.
  assert (Hi : iid_ok iid) by (eapply entries_iid; [apply incl_refl | constructor | exact E1]).
  clear E1. revert s1 K1.
  apply fails_bind_r.
  - apply keeps_each. intros sp Hsp. apply share_keeps. unfold iid_ok in Hi. rewrite Forall_forall in Hi. auto.
  - intros _. apply fails_bind_l. apply (fails_each Inv _ (keys models) k).
    + intros a Ha. apply keeps_bind; [apply keeps_get|]. intros. apply keeps_bind; [apply keeps_lift|]. intros; apply keeps_ret.
    + exact (in_map fst _ _ Hin).
    + apply fails_bind_l. exact (pop_of_fails k v Hin).
Qed.

(** a parameter without data, or no redshift model *)
Theorem missing_data_raises w fl rv dr grid samps injs Ninj Nobs Tobs s k : is_dict models -> reachable models priors s ->
  In k ("prior" :: keys models) -> ~ In k (keys injs) \/ ~ In k (keys samps) ->
  raises (snd (call_model w fl models priors grid rv dr samps injs Ninj Nobs Tobs s)).
Proof.
  intros Dm Hr Hin Hno. apply call_raises; auto.
  apply fails_bind_r; [apply keeps_each; intros; now apply sample_keeps|]. intros _.
  intros s0 Hs. unfold s_bind at 1.
  destruct (build_entries w grid models [] s0) as [s1 [iid|e]]; [|exists e; reflexivity].
  set (T := fun _ : cstate D => True).
  assert (F : fails T (s_bind (s_each share iid) (fun _ => rest_of w samps injs))); [|exact (F s1 I)].
  apply fails_bind_r; [intros ? ?; exact I|]. intros _.
  assert (X : forall {A} (d : dict A) (B : Type) k0 (f : A -> Step D B), ~ In k0 (keys d) -> fails T (s_bind (s_lift (assoc k0 d)) f)).
  { intros A d B k0 f N. apply fails_bind_l. intros s' _. cbn. destruct (assoc k0 d) eqn:E; [|eauto]. exfalso. apply N, assoc_keys. eauto. }
  assert (KT : forall {A} (m : Step D A), keeps T m) by (intros A m s' _; exact I).
  unfold rest_of. destruct Hno as [N|N]; destruct Hin as [<-|Hin].
  - apply fails_bind_r; [apply KT|]. intros. now apply X.
  - apply fails_bind_l. eapply fails_each; [intros; apply KT | exact Hin|]. apply fails_bind_r; [apply KT|]. intros. now apply X.
  - apply fails_bind_r; [apply KT|]. intros. apply fails_bind_r; [apply KT|]. intros. apply fails_bind_r; [apply KT|]. intros.
    apply fails_bind_r; [apply KT|]. intros. now apply X.
  - apply fails_bind_r; [apply KT|]. intros. apply fails_bind_r; [apply KT|]. intros. apply fails_bind_r; [apply KT|]. intros.
    apply fails_bind_l. eapply fails_each; [intros; apply KT | exact Hin|]. apply fails_bind_r; [apply KT|]. intros. now apply X.
Qed.
End Build.
