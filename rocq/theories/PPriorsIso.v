(** Proofs about the isotropic chi_eff prior of [MPriors]: case analysis and termination. *)
From Verif Require Export NumFacts ArrFacts MPriors Spec PPriorsAligned.
Open Scope R_scope.

Definition rb1 (q a : R) := a * (1 - q) / (1 + q).
Definition rb2 (q a : R) := q * a / (1 + q).
Definition rb3 (q a : R) := a / (1 + q).
Lemma iso_b_fin q a : 0 < q -> iso_b1 (Fin q) (Fin a) = Fin (rb1 q a) /\ iso_b2 (Fin q) (Fin a) = Fin (rb2 q a)
  /\ iso_b3 (Fin q) (Fin a) = Fin (rb3 q a).
Proof.
  intros. unfold iso_b1, iso_b2, iso_b3. rewrite nsub_fin, nadd_fin, !nmul_fin, !ndiv_fin by lra. auto.
Qed.
Lemma rb_facts q a : 0 < q <= 1 -> 0 < a ->
  0 <= rb1 q a /\ rb1 q a < rb3 q a /\ rb3 q a < a /\ 0 < rb2 q a <= rb3 q a /\ rb1 q a + rb2 q a = rb3 q a /\
  (rb2 q a = rb3 q a <-> rb1 q a = 0).
Proof.
  intros Hq Ha.
  assert (E : rb1 q a + rb2 q a = rb3 q a) by (unfold rb1, rb2, rb3; field; lra).
  assert (H2 : 0 < rb2 q a) by (apply Rdiv_lt_0_compat; nra).
  assert (H1 : 0 <= rb1 q a) by (apply Rdiv_le_0_compat; nra).
  assert (rb3 q a < a) by (apply Rdiv_cross_lt; nra).
  repeat split; lra.
Qed.

(** list of the seven case flags at |chi| *)
Definition iso_flags (chi q amax : num) : list bool :=
  [iso_caseZ chi; iso_caseA chi q amax; iso_caseB chi q amax; iso_caseC chi q amax; iso_caseD chi q amax;
   iso_caseE chi q amax; iso_caseF chi amax].

Ltac iso_cases q a :=
  unfold iso_flags, iso_caseZ, iso_caseA, iso_caseB, iso_caseC, iso_caseD, iso_caseE, iso_caseF, ngt, nge;
  let E1 := fresh in let E2 := fresh in let E3 := fresh in
  destruct (iso_b_fin q a) as (E1 & E2 & E3); [lra|]; rewrite ?E1, ?E2, ?E3; clear E1 E2 E3; cbn [nlt nle neqb].

Lemma iso_exclusive q a x : 0 < q <= 1 -> 0 < a -> 0 <= x ->
  (length (filter (fun b => b) (iso_flags (Fin x) (Fin q) (Fin a))) <= 1)%nat.
Proof.
  intros Hq Ha Hx. pose proof (rb_facts q a Hq Ha) as (F1 & F2 & F3 & F4 & F5 & F6).
  iso_cases q a. repeat (rcase; cbn [andb]); cbn [filter length]; try lia; exfalso; lra.
Qed.

Definition iso_boundary (q a x : R) : Prop :=
  (x = rb1 q a /\ 0 < x) \/ (x = rb2 q a /\ x < rb1 q a) \/ x = rb3 q a.

Lemma iso_none q a x : 0 < q <= 1 -> 0 < a -> 0 <= x ->
  (forallb negb (iso_flags (Fin x) (Fin q) (Fin a)) = true <-> iso_boundary q a x).
Proof.
  intros Hq Ha Hx. pose proof (rb_facts q a Hq Ha) as (F1 & F2 & F3 & F4 & F5 & F6).
  unfold iso_boundary. iso_cases q a.
  repeat (rcase; cbn [andb]); cbn [forallb negb andb]; (split; [intros K; try discriminate; lra | intros K; try reflexivity; exfalso; lra]).
Qed.

Lemma iso_select_none Di chi q a :
  iso_select Di chi q a = None <-> forallb negb (iso_flags chi q a) = true.
Proof.
  unfold iso_select, iso_flags. cbn [forallb].
  destruct (iso_caseZ chi), (iso_caseA chi q a), (iso_caseB chi q a), (iso_caseC chi q a), (iso_caseD chi q a),
    (iso_caseE chi q a), (iso_caseF chi a); cbn; split; congruence.
Qed.

Lemma nabs_fin x : nabs (Fin x) = Fin (Rabs x). Proof. reflexivity. Qed.

Lemma iso_even n Di x q a :
  chi_effective_prior_from_isotropic_spins n Di (Fin (- x)) q a = chi_effective_prior_from_isotropic_spins n Di (Fin x) q a.
Proof. destruct n; [reflexivity|]. cbn [chi_effective_prior_from_isotropic_spins]. rewrite !nabs_fin, Rabs_Ropp. reflexivity. Qed.

Lemma iso_outside n Di x q a : 0 < q <= 1 -> 0 < a -> a <= Rabs x ->
  chi_effective_prior_from_isotropic_spins (S n) Di (Fin x) (Fin q) (Fin a) = Ok (Fin 0).
Proof.
  intros Hq Ha Hx. pose proof (rb_facts q a Hq Ha) as (F1 & F2 & F3 & F4 & F5 & F6).
  cbn [chi_effective_prior_from_isotropic_spins]. rewrite nabs_fin. generalize dependent (Rabs x). clear x. intros x Hx.
  unfold iso_select. iso_cases q a.
  repeat (rcase; cbn [andb]); try reflexivity; exfalso; lra.
Qed.

(** away from the boundaries exactly one formula is used, and the call returns at once *)
Lemma iso_select_some Di x q a : 0 < q <= 1 -> 0 < a -> 0 <= x -> ~ iso_boundary q a x ->
  exists p, iso_select Di (Fin x) (Fin q) (Fin a) = Some p.
Proof.
  intros Hq Ha Hx Hb. destruct (iso_select Di (Fin x) (Fin q) (Fin a)) eqn:E; [eauto|].
  apply iso_select_none in E. apply (iso_none q a x Hq Ha Hx) in E. contradiction.
Qed.
Lemma iso_regular Di x q a : 0 < q <= 1 -> 0 < a -> ~ iso_boundary q a (Rabs x) ->
  exists p, iso_select Di (Fin (Rabs x)) (Fin q) (Fin a) = Some p /\
    forall n, chi_effective_prior_from_isotropic_spins (S n) Di (Fin x) (Fin q) (Fin a) = Ok p.
Proof.
  intros Hq Ha Hb. destruct (iso_select_some Di (Rabs x) q a Hq Ha (Rabs_pos x) Hb) as [p Hp].
  exists p. split; auto. intros n. cbn [chi_effective_prior_from_isotropic_spins]. rewrite nabs_fin, Hp. reflexivity.
Qed.

Definition eps : R := / 1000000.
Lemma eps_pos : 0 < eps. Proof. unfold eps. lra. Qed.

Lemma iso_at_boundary n Di x q a u v : 0 < q <= 1 -> 0 < a -> iso_boundary q a (Rabs x) ->
  chi_effective_prior_from_isotropic_spins n Di (Fin (Rabs x + eps)) (Fin q) (Fin a) = Ok u ->
  chi_effective_prior_from_isotropic_spins n Di (Fin (Rabs x - eps)) (Fin q) (Fin a) = Ok v ->
  chi_effective_prior_from_isotropic_spins (S n) Di (Fin x) (Fin q) (Fin a) = Ok (Fin (1 / 2) * (u + v))%num.
Proof.
  intros Hq Ha Hb Hu Hv.
  assert (Hn : iso_select Di (Fin (Rabs x)) (Fin q) (Fin a) = None).
  { apply iso_select_none, (iso_none q a); auto. apply Rabs_pos. }
  cbn [chi_effective_prior_from_isotropic_spins]. rewrite nabs_fin, Hn.
  unfold iso_eps. rewrite nadd_fin, nsub_fin. fold eps. rewrite Hu, Hv. reflexivity.
Qed.

(** [bdry] are the three potential case boundaries *)
Lemma iso_terminates Di q a x : 0 < q <= 1 -> 0 < a ->
  (forall u v, In u [rb1 q a; rb2 q a; rb3 q a] -> In v [rb1 q a; rb2 q a; rb3 q a] ->
     Rabs (u - v) <> eps /\ u + v <> eps) ->
  exists p, forall n, chi_effective_prior_from_isotropic_spins (S (S n)) Di (Fin x) (Fin q) (Fin a) = Ok p.
Proof.
  intros Hq Ha Hsep. pose proof eps_pos as He.
  assert (Hin : forall y, iso_boundary q a y -> In y [rb1 q a; rb2 q a; rb3 q a]).
  { intros y [[-> _]|[[-> _]| ->]]; cbn; auto. }
  assert (Hreg : forall s, s = 1 \/ s = -1 -> iso_boundary q a (Rabs x) ->
             exists p, forall n, chi_effective_prior_from_isotropic_spins (S n) Di (Fin (Rabs x + s * eps)) (Fin q) (Fin a) = Ok p).
  { intros s Hs Hb.
    destruct (iso_regular Di (Rabs x + s * eps) q a Hq Ha) as (p & _ & Hp); [|eauto].
    intros C. specialize (Hsep _ _ (Hin _ C) (Hin _ Hb)) as [S1 S2].
    pose proof (Rabs_pos x) as Px.
    destruct (Rle_lt_dec 0 (Rabs x + s * eps)) as [P|P].
    - apply S1. rewrite (Rabs_right (Rabs x + s * eps)) by lra.
      replace (Rabs x + s * eps - Rabs x) with (s * eps) by ring. destruct Hs; subst; unfold Rabs; destruct (Rcase_abs _); lra.
    - apply S2. rewrite (Rabs_left (Rabs x + s * eps)) by lra. destruct Hs; subst; lra. }
  assert (Hdec : iso_boundary q a (Rabs x) \/ ~ iso_boundary q a (Rabs x)).
  { pose proof (iso_none q a (Rabs x) Hq Ha (Rabs_pos x)) as N. destruct (forallb negb _); [left; apply N; auto|].
    right. intros C. apply N in C. discriminate. }
  destruct Hdec as [Hb|Hb].
  - destruct (Hreg 1) as [u Hu]; auto. destruct (Hreg (-1)) as [v Hv]; auto.
    replace (Rabs x + 1 * eps) with (Rabs x + eps) in Hu by ring.
    replace (Rabs x + -1 * eps) with (Rabs x - eps) in Hv by ring.
    eexists. intros n. apply (iso_at_boundary _ _ _ _ _ u v); auto.
  - destruct (iso_regular Di x q a Hq Ha Hb) as (p & _ & Hp). eauto.
Qed.

(** divergence: two boundaries exactly 1e-6 apart *)
Lemma iso_diverges Di n : forall q a, 0 < q < 1 -> 0 < a -> rb2 q a = eps -> 2 * eps < rb1 q a ->
  (forall x, Rabs x = rb1 q a \/ Rabs x = rb3 q a ->
   chi_effective_prior_from_isotropic_spins n Di (Fin x) (Fin q) (Fin a) = Err RecursionError).
Proof.
  intros q a Hq Ha H2 H1. pose proof eps_pos as He.
  assert (Hq' : 0 < q <= 1) by lra.
  pose proof (rb_facts q a Hq' Ha) as (F1 & F2 & F3 & F4 & F5 & F6).
  induction n as [|n IH]; intros x Hx; [reflexivity|].
  assert (Hb : iso_boundary q a (Rabs x)) by (unfold iso_boundary; destruct Hx as [-> | ->]; lra).
  assert (Hn : iso_select Di (Fin (Rabs x)) (Fin q) (Fin a) = None).
  { apply iso_select_none, (iso_none q a); auto. apply Rabs_pos. }
  cbn [chi_effective_prior_from_isotropic_spins]. rewrite nabs_fin, Hn.
  unfold iso_eps. rewrite nadd_fin, nsub_fin. fold eps.
  destruct Hx as [Hx|Hx]; rewrite Hx.
  - rewrite (IH (rb1 q a + eps)); [reflexivity|]. right. rewrite Rabs_right; lra.
  - destruct (chi_effective_prior_from_isotropic_spins n Di (Fin (rb3 q a + eps)) (Fin q) (Fin a)) eqn:E.
    + cbn [rbind]. rewrite (IH (rb3 q a - eps)); [reflexivity|]. left. rewrite Rabs_right; lra.
    + (* the left call itself failed: only RecursionError can be raised *)
      clear - E. assert (G : forall n y, match chi_effective_prior_from_isotropic_spins n Di y (Fin q) (Fin a) with
                             | Ok _ => True | Err e => e = RecursionError end).
      { clear. induction n as [|n IH]; intros y; cbn; auto.
        destruct (iso_select Di (nabs y) (Fin q) (Fin a)); auto.
        pose proof (IH (nabs y + iso_eps)%num) as I1. pose proof (IH (nabs y - iso_eps)%num) as I2.
        destruct (chi_effective_prior_from_isotropic_spins n Di (nabs y + iso_eps)%num (Fin q) (Fin a)); cbn [rbind]; auto.
        destruct (chi_effective_prior_from_isotropic_spins n Di (nabs y - iso_eps)%num (Fin q) (Fin a)); cbn [rbind]; auto. }
      specialize (G n (Fin (rb3 q a + eps))). rewrite E in G. subst. reflexivity.
Qed.
Lemma iso_diverges_example : exists q a x, 0 < q <= 1 /\ 0 < a <= 1 /\ 0 <= x < a /\
  forall n Di, chi_effective_prior_from_isotropic_spins n Di (Fin x) (Fin q) (Fin a) = Err RecursionError.
Proof.
  (* a = 1, q/(1+q) = 1e-6 *)
  exists (/ 999999), 1, (999998 / 1000000). repeat split; try lra.
  intros n Di. apply iso_diverges; try lra.
  - unfold rb2, eps. field.
  - unfold rb1, eps. lra.
  - left. unfold rb1. rewrite Rabs_right by lra. field.
Qed.
Lemma iso_nan n Di q a : chi_effective_prior_from_isotropic_spins n Di NaN q a = Err RecursionError.
Proof.
  induction n as [|n IH]; [reflexivity|]. cbn [chi_effective_prior_from_isotropic_spins nabs].
  assert (E : iso_select Di NaN q a = None).
  { apply iso_select_none. unfold iso_flags, iso_caseZ, iso_caseA, iso_caseB, iso_caseC, iso_caseD, iso_caseE, iso_caseF, ngt, nge.
    assert (N : forall y, nlt y NaN = false /\ nlt NaN y = false /\ nle y NaN = false).
    { intros y; destruct y; auto. }
    cbn [neqb]. repeat rewrite (proj1 (N _)). repeat rewrite (proj1 (proj2 (N _))). repeat rewrite (proj2 (proj2 (N _))).
    reflexivity. }
  rewrite E. change (NaN + iso_eps)%num with NaN. rewrite IH. reflexivity.
Qed.

(** arrays: with scalar q an array call is the elementwise scalar call *)
Lemma fill_length os vals : length (fill os vals) = length os.
Proof. revert vals; induction os as [|[p|] os IH]; intros vals; cbn; auto. destruct vals; cbn; auto. Qed.

Lemma map2_repeat {A B C} (f : A -> B -> C) l b : map2 f l (repeat b (length l)) = map (fun x => f x b) l.
Proof. induction l; cbn; f_equal; auto. Qed.

Lemma iso_array_scalar n Di q a : forall chis ps,
  Forall2 (fun c p => chi_effective_prior_from_isotropic_spins n Di c q a = Ok p) chis ps ->
  chis <> [] -> iso_array n Di chis (QScalar q) a = Ok ps.
Proof.
  induction n as [|n IH]; intros chis ps H Hne.
  - destruct H; [congruence|discriminate].
  - cbn [iso_array qlist rbind]. rewrite map_length. rewrite <- (map_length nabs chis), map2_repeat, map_map.
    set (sel := map (fun x => iso_select Di (nabs x) q a) chis).
    set (bnd := map fst (filter (fun p => is_none (snd p)) (combine (map nabs chis) sel))).
    (* values for the boundary elements *)
    assert (G : exists us vs,
       Forall2 (fun c p => chi_effective_prior_from_isotropic_spins n Di c q a = Ok p) (map (fun c => (c + iso_eps)%num) bnd) us /\
       Forall2 (fun c p => chi_effective_prior_from_isotropic_spins n Di c q a = Ok p) (map (fun c => (c - iso_eps)%num) bnd) vs /\
       fill sel (map2 (fun a b => (Fin (1 / 2) * (a + b))%num) us vs) = ps).
    { clear Hne. unfold bnd, sel. clear bnd sel. induction H as [|c p chis ps Hc H IHl]; [exists [], []; repeat constructor|].
      destruct IHl as (us & vs & H1 & H2 & H3).
      cbn [map combine filter snd]. cbn [chi_effective_prior_from_isotropic_spins] in Hc.
      destruct (iso_select Di (nabs c) q a) as [p'|] eqn:E; cbn [is_none].
      - injection Hc as ->. exists us, vs. split; [exact H1|split; [exact H2|]]. cbn [fill]. f_equal. exact H3.
      - destruct (chi_effective_prior_from_isotropic_spins n Di (nabs c + iso_eps)%num q a) as [u|] eqn:Eu; [|discriminate].
        destruct (chi_effective_prior_from_isotropic_spins n Di (nabs c - iso_eps)%num q a) as [v|] eqn:Ev; [|discriminate].
        cbn [rbind] in Hc. injection Hc as <-.
        exists (u :: us), (v :: vs). cbn [map fst]. split; [constructor; auto|split; [constructor; auto|]].
        cbn [map2 fill]. f_equal. exact H3. }
    destruct G as (us & vs & G1 & G2 & G3).
    destruct (existsb is_none sel) eqn:Ex.
    + assert (Hb : bnd <> []).
      { unfold bnd. apply existsb_exists in Ex. destruct Ex as (o & Hin & Ho).
        unfold sel in Hin. apply in_map_iff in Hin. destruct Hin as (c & Hc & Hin).
        intros C. assert (M : In (nabs c, o) (filter (fun p => is_none (snd p)) (combine (map nabs chis) sel))).
        { apply filter_In. split; [|exact Ho]. unfold sel. subst o. clear - Hin.
          induction chis as [|d chis IHc]; [destruct Hin|]. cbn [map combine]. destruct Hin as [->|Hin]; [left; auto|right; auto]. }
        destruct (filter _ _); [destruct M|discriminate C]. }
      rewrite (IH _ us G1); [|intros C; apply map_eq_nil in C; auto]. cbn [rbind].
      rewrite (IH _ vs G2); [|intros C; apply map_eq_nil in C; auto]. cbn [rbind]. rewrite G3. reflexivity.
    + f_equal. rewrite <- G3.
      assert (Hall : forall vals, fill sel vals = fill sel []).
      { clear - Ex. induction sel as [|[p|] sel IHs]; intros vals; cbn in *; auto; [f_equal; auto|discriminate]. }
      symmetry. apply Hall.
Qed.

(** with array q, a boundary element makes the whole call fail although each element alone succeeds *)
Lemma iso_array_refuted Di : exists chis qs ps,
  length qs = length chis /\
  Forall2 (fun cq p => forall n, chi_effective_prior_from_isotropic_spins (S (S n)) Di (fst cq) (snd cq) (Fin 1) = Ok p)
    (combine chis qs) ps /\
  forall n, iso_array (S (S n)) Di chis (QArray qs) (Fin 1) = Err ValueError.
Proof.
  assert (S1 : forall u v, In u [rb1 (1/2) 1; rb2 (1/2) 1; rb3 (1/2) 1] -> In v [rb1 (1/2) 1; rb2 (1/2) 1; rb3 (1/2) 1] ->
     Rabs (u - v) <> eps /\ u + v <> eps).
  { assert (E1 : rb1 (1/2) 1 = 1/3) by (unfold rb1; field). assert (E2 : rb2 (1/2) 1 = 1/3) by (unfold rb2; field).
    assert (E3 : rb3 (1/2) 1 = 2/3) by (unfold rb3; field). rewrite E1, E2, E3. unfold eps.
    intros u v Hu Hv. cbn [In] in Hu, Hv.
    destruct Hu as [<-|[<-|[<-|[]]]], Hv as [<-|[<-|[<-|[]]]]; unfold Rabs; destruct (Rcase_abs _); lra. }
  assert (E1 : rb1 (1/2) 1 = 1/3) by (unfold rb1; field).
  assert (Hb : iso_boundary (1/2) 1 (Rabs (1/3))).
  { left. rewrite Rabs_right by lra. lra. }
  destruct (iso_terminates Di (1/2) 1 (1/3) ltac:(lra) ltac:(lra) S1) as (p1 & P1).
  assert (Z : ~ iso_boundary 1 1 (Rabs 0)).
  { rewrite Rabs_R0. unfold iso_boundary, rb1, rb2, rb3. lra. }
  destruct (iso_regular Di 0 1 1 ltac:(lra) ltac:(lra) Z) as (p2 & P2 & P3).
  exists [Fin (1/3); Fin 0], [Fin (1/2); Fin 1], [p1; p2]. split; [reflexivity|]. split.
  - cbn [combine]. constructor; [exact P1|]. constructor; [|constructor]. intros n. apply P3.
  - intros n. cbn [iso_array qlist map length Nat.eqb rbind map2].
    assert (N : iso_select Di (nabs (Fin (1/3))) (Fin (1/2)) (Fin 1) = None).
    { apply iso_select_none. rewrite nabs_fin. apply (iso_none (1/2) 1); try lra; auto. apply Rabs_pos. }
    rewrite N. rewrite (nabs_fin 0), P2. cbn [existsb is_none orb filter combine fst snd map length Nat.eqb rbind]. reflexivity.
Qed.
Lemma iso_none_iff Di q a x : 0 < q <= 1 -> 0 < a -> 0 <= x ->
  (iso_select Di (Fin x) (Fin q) (Fin a) = None <->
   (x = a * (1 - q) / (1 + q) /\ 0 < x) \/ (x = q * a / (1 + q) /\ x < a * (1 - q) / (1 + q)) \/ x = a / (1 + q)).
Proof. intros. rewrite iso_select_none. apply iso_none; auto. Qed.
Lemma iso_boundary_average n Di x q a u v : 0 < q <= 1 -> 0 < a ->
  iso_select Di (Fin (Rabs x)) (Fin q) (Fin a) = None ->
  chi_effective_prior_from_isotropic_spins n Di (Fin (Rabs x + / 1000000)) (Fin q) (Fin a) = Ok u ->
  chi_effective_prior_from_isotropic_spins n Di (Fin (Rabs x - / 1000000)) (Fin q) (Fin a) = Ok v ->
  chi_effective_prior_from_isotropic_spins (S n) Di (Fin x) (Fin q) (Fin a) = Ok (Fin (1 / 2) * (u + v))%num.
Proof.
  intros Hq Ha Hn. apply iso_at_boundary; auto. apply (iso_none_iff Di); auto. apply Rabs_pos.
Qed.
