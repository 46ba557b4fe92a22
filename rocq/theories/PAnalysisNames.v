(** Every site name is recorded at most once. *)
From Coq Require Import Ascii DecimalNat.
From Verif Require Export PAnalysisLik Spec.
Open Scope R_scope.
Open Scope string_scope.
Open Scope list_scope.

Notation L := list_ascii_of_string.
Lemma L_inj s t : L s = L t -> s = t.
Proof. intros H. rewrite <- (string_of_list_ascii_of_string s), <- (string_of_list_ascii_of_string t), H. reflexivity. Qed.
Lemma L_app s t : L (s ++ t)%string = L s ++ L t.
Proof. induction s; cbn; auto. now rewrite IHs. Qed.

Definition is_digit (c : ascii) : bool := ((48 <=? nat_of_ascii c) && (nat_of_ascii c <=? 57))%nat%bool.
Lemma digits_uint u : Forall (fun c => is_digit c = true) (L (NilEmpty.string_of_uint u)).
Proof. induction u; cbn; auto. Qed.
Lemma digits_dec n : Forall (fun c => is_digit c = true) (L (dec n)).
Proof. unfold dec, NilZero.string_of_uint. destruct (Nat.to_uint n); try apply digits_uint; repeat constructor; apply digits_uint. Qed.
Lemma dec_nonempty n : L (dec n) <> [].
Proof. unfold dec, NilZero.string_of_uint. destruct (Nat.to_uint n); discriminate. Qed.
Lemma dec_inj m n : dec m = dec n -> m = n.
Proof.
  unfold dec. intros H. apply (f_equal NilZero.uint_of_string) in H.
  assert (N : forall k, Nat.to_uint k <> Nil).
  { intros k E. pose proof (DecimalNat.Unsigned.of_to k) as O. rewrite E in O. cbn in O. subst k. discriminate. }
  rewrite !NilZero.usu in H by apply N. injection H as H. now apply DecimalNat.Unsigned.to_uint_inj.
Qed.

Lemma split_us x y d e : Forall (fun c => is_digit c = true) d -> Forall (fun c => is_digit c = true) e ->
  x ++ "_"%char :: d = y ++ "_"%char :: e -> x = y /\ d = e.
Proof.
  revert y. induction x as [|a x IH]; intros [|b y] Hd He; cbn.
  - intros H. injection H as ->. auto.
  - intros H. injection H as <- H. exfalso. subst d. apply Forall_app in Hd as [_ Hd]. inversion Hd. discriminate.
  - intros H. injection H as -> H. exfalso. subst e. apply Forall_app in He as [_ He]. inversion He. discriminate.
  - intros H. injection H as -> H. apply IH in H as [-> ->]; auto.
Qed.

Definition ev_name (ev : nat) (s : string) : Prop := exists x, L s = x ++ L "_event" ++ "_"%char :: L (dec ev).
Lemma ev_name_inj ev ev' s : ev_name ev s -> ev_name ev' s -> ev = ev'.
Proof.
  intros [x E] [y E']. rewrite E in E'. rewrite !app_assoc in E'. apply split_us in E' as [_ E']; try apply digits_dec.
  apply L_inj in E'. now apply dec_inj.
Qed.
Fixpoint strip (l : list ascii) : list ascii := match l with c :: r => if is_digit c then strip r else l | [] => [] end.
Definition evlike (s : string) : bool :=
  match strip (rev (L s)) with
  | "_"%char :: "t"%char :: "n"%char :: "e"%char :: "v"%char :: "e"%char :: "_"%char :: _ => true | _ => false end.
Lemma strip_app d l : Forall (fun c => is_digit c = true) d -> strip (d ++ l) = strip l.
Proof. induction 1; cbn; auto. now rewrite H. Qed.
Lemma ev_name_like ev s : ev_name ev s -> evlike s = true.
Proof.
  intros [x E]. unfold evlike. rewrite E. rewrite !rev_app_distr. cbn [rev app]. rewrite <- !app_assoc. rewrite strip_app.
  reflexivity. apply Forall_rev, digits_dec.
Qed.

(** generic: names of a sequence of actions *)
Lemma names_app l m : names (l ++ m) = names l ++ names m.
Proof. apply map_app. Qed.
Lemma NoDup_app_ {A} (l m : list A) : NoDup l -> NoDup m -> (forall x, In x l -> In x m -> False) -> NoDup (l ++ m).
Proof.
  induction 1 as [|a l Ha Hl IH]; cbn; auto. intros Hm HD. constructor.
  - rewrite in_app_iff. intros [H1|H1]; [auto|]. eapply HD; [left; reflexivity|exact H1].
  - apply IH; auto. intros x H1 H2. eapply HD; eauto.
Qed.
Lemma names_bind {A B} (m : M A) (f : A -> M B) (P Q : string -> Prop) :
  NoDup (names (fst m)) -> (forall n, In n (names (fst m)) -> P n) ->
  (forall a, NoDup (names (fst (f a))) /\ (forall n, In n (names (fst (f a))) -> Q n)) ->
  (forall n, P n -> Q n -> False) ->
  NoDup (names (fst (mbind m f))) /\ (forall n, In n (names (fst (mbind m f))) -> P n \/ Q n).
Proof.
  intros N1 P1 H2 D. unfold mbind. destruct m as [s [a|e]]; cbn [fst snd] in *; auto.
  destruct (H2 a) as [N2 Q2]. destruct (f a) as [s' r']. cbn [fst snd] in *. rewrite names_app. split.
  - apply NoDup_app_; auto. intros x H1 H3. eapply D; eauto.
  - intros n. rewrite in_app_iff. intros [|]; auto.
Qed.
Lemma names_for {A} (l : list A) (f : A -> M unit) (P : A -> string -> Prop) :
  NoDup l -> (forall a, In a l -> NoDup (names (fst (f a))) /\ (forall n, In n (names (fst (f a))) -> P a n)) ->
  (forall a b n, In a l -> In b l -> P a n -> P b n -> a = b) ->
  NoDup (names (fst (for_each l f))) /\ (forall n, In n (names (fst (for_each l f))) -> exists a, In a l /\ P a n).
Proof.
  intros Hl. induction Hl as [|a l Ha Hl IH]; intros H1 H2; cbn [for_each].
  - split; [constructor|cbn; tauto].
  - destruct (H1 a (or_introl eq_refl)) as [Na Pa].
    destruct IH as [Nr Pr]; [intros; apply H1; right; auto|intros b c n Hb Hc; apply H2; right; auto|].
    destruct (names_bind (f a) (fun _ => for_each l f) (P a) (fun n => exists b, In b l /\ P b n)) as [G1 G2]; auto.
    { intros n HP (b & Hb & HPb). assert (a = b) by (eapply H2; eauto; cbn; auto). subst. auto. }
    split; auto. intros n Hn. destruct (G2 n Hn) as [|(b & ? & ?)]; [exists a|exists b]; cbn; auto.
Qed.
Lemma names_lift {A B} (r : result A) (f : A -> M B) (Q : string -> Prop) :
  (forall a, NoDup (names (fst (f a))) /\ (forall n, In n (names (fst (f a))) -> Q n)) ->
  NoDup (names (fst (mbind (lift r) f))) /\ (forall n, In n (names (fst (mbind (lift r) f))) -> Q n).
Proof.
  intros H. unfold mbind, lift. destruct r as [a|e]; [|split; [constructor|cbn; tauto]].
  specialize (H a). destruct (f a). exact H.
Qed.

Definition cat_name (i ev : nat) : string := ("cat_frac_subpop_" ++ dec (S i) ++ "_event_" ++ dec ev)%string.
Definition obs_name (p : string) (ev : nat) : string := (p ++ "_obs_event_" ++ dec ev)%string.
Definition pred_name (p : string) (ev : nat) : string := (p ++ "_pred_event_" ++ dec ev)%string.
Lemma cat_ev i ev : L (cat_name i ev) = (L "cat_frac_subpop_" ++ L (dec (S i)) ++ L "_event") ++ "_"%char :: L (dec ev).
Proof. unfold cat_name. rewrite !L_app. cbn [L app]. rewrite <- !app_assoc. reflexivity. Qed.
Lemma obs_ev p ev : L (obs_name p ev) = (L p ++ L "_obs_event") ++ "_"%char :: L (dec ev).
Proof. unfold obs_name. rewrite !L_app. cbn [L app]. rewrite <- !app_assoc. reflexivity. Qed.
Lemma pred_ev p ev : L (pred_name p ev) = (L p ++ L "_pred_event") ++ "_"%char :: L (dec ev).
Proof. unfold pred_name. rewrite !L_app. cbn [L app]. rewrite <- !app_assoc. reflexivity. Qed.

Lemma cat_inj i j ev : cat_name i ev = cat_name j ev -> i = j.
Proof.
  intros H. apply (f_equal L) in H. rewrite !cat_ev in H. apply split_us in H as [H _]; try apply digits_dec.
  apply app_inv_head in H. apply app_inv_tail in H. apply L_inj, dec_inj in H. congruence.
Qed.
Lemma obs_inj p q ev : obs_name p ev = obs_name q ev -> p = q.
Proof.
  intros H. apply (f_equal L) in H. rewrite !obs_ev in H. apply split_us in H as [H _]; try apply digits_dec.
  apply app_inv_tail in H. now apply L_inj.
Qed.
Lemma pred_inj p q ev : pred_name p ev = pred_name q ev -> p = q.
Proof.
  intros H. apply (f_equal L) in H. rewrite !pred_ev in H. apply split_us in H as [H _]; try apply digits_dec.
  apply app_inv_tail in H. now apply L_inj.
Qed.
Lemma obs_pred p q ev : obs_name p ev = pred_name q ev -> False.
Proof.
  intros H. apply (f_equal L) in H. rewrite obs_ev, pred_ev in H. apply split_us in H as [H _]; try apply digits_dec.
  apply (f_equal (@rev ascii)) in H. rewrite !rev_app_distr in H. cbn in H. discriminate.
Qed.
Lemma cat_obs_like i ev x c d : is_digit c = false ->
  (L "cat_frac_subpop_" ++ L (dec (S i)) ++ L "_event") ++ "_"%char :: L (dec ev) = (x ++ (c :: nil) ++ L "_event") ++ "_"%char :: L (dec d) -> False.
Proof.
  intros Hc H. apply split_us in H as [H _]; try apply digits_dec. rewrite !app_assoc in H. apply app_inv_tail in H.
  pose proof (digits_dec (S i)) as D. pose proof (dec_nonempty (S i)) as Nn.
  destruct (exists_last Nn) as (l & k & E). rewrite E in *. rewrite app_assoc in H. apply app_inj_tail in H as [_ <-].
  apply Forall_app in D as [_ D]. inversion D. congruence.
Qed.
Lemma cat_obs i p ev : cat_name i ev = obs_name p ev -> False.
Proof.
  intros H. apply (f_equal L) in H. rewrite cat_ev, obs_ev in H.
  apply (cat_obs_like i ev (L p ++ L "_ob") "s"%char ev); auto. rewrite H, <- !app_assoc. reflexivity.
Qed.
Lemma cat_pred i p ev : cat_name i ev = pred_name p ev -> False.
Proof.
  intros H. apply (f_equal L) in H. rewrite cat_ev, pred_ev in H.
  apply (cat_obs_like i ev (L p ++ L "_pre") "d"%char ev); auto. rewrite H, <- !app_assoc. reflexivity.
Qed.

Lemma combine_fst_NoDup {A} n k (l : list A) : NoDup (map fst (combine (seq k n) l)).
Proof.
  revert k l. induction n; intros k [|a l]; cbn; try constructor; auto.
  intros H. apply in_map_iff in H as ([i b] & E & H). cbn in E. subst. apply in_combine_l in H. apply in_seq in H. lia.
Qed.
Lemma NoDup_of_map {A B} (f : A -> B) l : NoDup (map f l) -> NoDup l.
Proof.
  induction l; cbn; intros H; constructor; inversion H; subst; auto. intros HI. apply H2. now apply in_map.
Qed.
Lemma combine_seq_inj {A} n k (l : list A) x y : In x (combine (seq k n) l) -> In y (combine (seq k n) l) -> fst x = fst y -> x = y.
Proof.
  intros Hx Hy E. pose proof (combine_fst_NoDup n k l) as N. revert Hx Hy E N. generalize (combine (seq k n) l) as c.
  induction c as [|z c IH]; cbn; [tauto|]. intros Hx Hy E N. inversion N; subst.
  destruct Hx as [->|Hx], Hy as [->|Hy]; auto.
  - exfalso. apply H1. rewrite E. now apply in_map.
  - exfalso. apply H1. rewrite <- E. now apply in_map.
Qed.

Lemma ppc_names a d pe inj : (forall ps, param_names a = Some ps -> NoDup ps) ->
  NoDup (names (fst (ppc a d pe inj))) /\ (forall n, In n (names (fst (ppc a d pe inj))) -> evlike n = true).
Proof.
  intros HP. unfold ppc. destruct (param_names a) as [ps|]; [|split; [constructor|cbn; tauto]].
  destruct (injdata a) as [ij|]; [|split; [constructor|cbn; tauto]].
  destruct (pedata a) as [pd|]; [|split; [constructor|cbn; tauto]].
  destruct pe as [w|ws]; [|split; [constructor|cbn; tauto]].
  specialize (HP ps eq_refl).
  do 4 (apply names_lift; intros ?).
  match goal with |- context [for_each ?l ?f] =>
    destruct (names_for l f ev_name) as [G1 G2] end.
  4:{ split; auto. intros n Hn. destruct (G2 n Hn) as (ev & _ & He). eapply ev_name_like; eauto. }
  { apply seq_NoDup. }
  2:{ intros ev ev' n _ _. apply ev_name_inj. }
  intros ev _. cbn zeta.
  match goal with |- context [mbind (when ?b ?m) ?k] =>
    destruct (names_bind (when b m) k (fun n => exists i, n = cat_name i ev) (fun n => exists p, n = obs_name p ev \/ n = pred_name p ev)) as [H1 H2] end.
  5:{ split; auto. intros n Hn. destruct (H2 n Hn) as [[i ->]|[p [->| ->]]].
      - exists (L "cat_frac_subpop_" ++ L (dec (S i))). rewrite cat_ev, <- !app_assoc. reflexivity.
      - exists (L p ++ L "_obs"). rewrite obs_ev, <- !app_assoc. reflexivity.
      - exists (L p ++ L "_pred"). rewrite pred_ev, <- !app_assoc. reflexivity. }
  4:{ intros n [i ->] [p [E|E]]; [eapply cat_obs|eapply cat_pred]; eauto. }
  3:{ intros _. match goal with |- context [for_each ?l ?f] =>
        destruct (names_for l f (fun p n => n = obs_name p ev \/ n = pred_name p ev)) as [K1 K2]; auto end.
      - intros p _. apply names_lift. intros pv.
        match goal with |- context [mbind ?m ?k] =>
          destruct (names_bind m k (fun n => n = obs_name p ev) (fun n => n = pred_name p ev)) as [J1 J2] end.
        + cbn. repeat constructor. tauto.
        + cbn. intuition.
        + intros _. apply names_lift. intros iv. cbn. split; [repeat constructor; tauto|intuition].
        + intros n -> E. eapply obs_pred; eauto.
        + split; auto.
      - intros p q n _ _ [->| ->] [E|E]; try (exfalso; eapply obs_pred; eauto; fail).
        + eapply obs_inj; eauto.
        + eapply pred_inj; eauto.
      - split; auto. intros n Hn. destruct (K2 n Hn) as (p & _ & Hp). eauto. }
  all: destruct (marginal_qs a); cbn [when]; try (cbn; first [constructor | tauto]);
    match goal with |- context [for_each ?l ?f] =>
        destruct (names_for l f (fun x n => n = cat_name (fst x) ev)) as [K1 K2]; auto end.
  all: try (eapply NoDup_of_map; apply combine_fst_NoDup).
  all: try (intros [i w'] _; cbn; split; [repeat constructor; tauto|intuition]; fail).
  all: try (intros x y n Hx Hy -> E; apply cat_inj in E; eapply combine_seq_inj; eauto; fail).
  intros n Hn. destruct (K2 n Hn) as (x & _ & ->). eauto.
Qed.

Definition fixed_names : list string :=
  ["nObs"; "Qs"; "log_nEff_inj"; "log_nEffs"; "logBFs"; "detection_efficiency"; "variance_log_BFs"; "variance_log_detection_efficiency";
   "surveyed_hypervolume"; "unscaled_rate"; "rate"; "selection_factor"; "sum_logBFs"; "log_l"; "neff_less_Nobs"; "variance_log_likelihood";
   "variance_less_1"; "log_likelihood"].

Fixpoint nodupb (l : list string) : bool := match l with [] => true | x :: r => (negb (existsb (String.eqb x) r) && nodupb r)%bool end.
Lemma nodupb_ok l : nodupb l = true -> NoDup l.
Proof.
  induction l; cbn; intros H; constructor; apply andb_prop in H as [H1 H2]; auto.
  intros HI. apply negb_true_iff in H1. assert (existsb (String.eqb a) l = true). apply existsb_exists. exists a. rewrite String.eqb_refl. auto. congruence.
Qed.

Lemma hl_names a d pe inj : (forall ps, param_names a = Some ps -> NoDup ps) ->
  NoDup (names (fst (hierarchical_likelihood a d pe inj))).
Proof.
  intros HP. rewrite hl_shape.
  assert (P0 : (names (fst (event_part a d pe)) = [] \/ names (fst (event_part a d pe)) = ["nObs"; "Qs"])).
  { unfold event_part. destruct (categorical a); destruct pe as [|[|w0 [|w1 ws]]]; cbn; auto. }
  destruct (bad_flags a); [constructor|].
  destruct (event_part a d pe) as [s0 [[[B E] V]|e]]; cbn [fst] in *.
  2:{ destruct P0 as [-> | ->]; apply nodupb_ok; reflexivity. }
  destruct (detection_efficiency _ _ _) as [[[lm le] v]|e].
  2:{ cbn [fst]; destruct P0 as [-> | ->]; apply nodupb_ok; reflexivity. }
  destruct (reconstruct_rate a && _)%bool.
  { cbn [fst]. rewrite names_app. cbn [fst]; destruct P0 as [-> | ->]; apply nodupb_ok; reflexivity. }
  destruct (min_neff_cut a && _)%bool.
  { cbn [fst]. rewrite names_app. unfold pre_sites, rate_sites. 
    destruct (reconstruct_rate a); [destruct (surveyed_hypervolume a)|]; destruct P0 as [-> | ->]; apply nodupb_ok; reflexivity. }
  cbn [fst]. rewrite !app_assoc, names_app. apply NoDup_app_.
  - rewrite !names_app. unfold pre_sites, post_sites, rate_sites.
    destruct (reconstruct_rate a), (surveyed_hypervolume a), (min_neff_cut a), (max_variance_cut a); destruct P0 as [-> | ->]; apply nodupb_ok; reflexivity.
  - unfold when. destruct (posterior_predictive_check a); [apply ppc_names; auto|constructor].
  - intros n H1 H2. assert (E2 : evlike n = true).
    { unfold when in H2. destruct (posterior_predictive_check a); [apply ppc_names in H2; auto|cbn in H2; tauto]. }
    assert (E1 : forallb (fun n => negb (evlike n)) (names ((s0 ++ pre_sites a d B E V lm le v) ++ post_sites a B E V lm le v)) = true).
    { rewrite !names_app. unfold pre_sites, post_sites, rate_sites.
      destruct (reconstruct_rate a), (surveyed_hypervolume a), (min_neff_cut a), (max_variance_cut a); destruct P0 as [-> | ->]; reflexivity. }
    rewrite forallb_forall in E1. specialize (E1 n H1). rewrite E2 in E1. discriminate.
Qed.
