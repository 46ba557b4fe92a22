(** Proofs about postprocess/plot.py. *)
From Coq Require Import Sorted Permutation Lia Lra.
From Verif Require Import NumFacts.
From Verif Require Import SpecPlot.
From Coq Require Import List.
Import ListNotations.
Open Scope R_scope.
Open Scope string_scope.
Open Scope list_scope.

(** ** Sorting *)
Fixpoint rinsert (x : R) (l : list R) : list R := match l with [] => x :: nil | y :: r => if Rleb x y then x :: l else y :: rinsert x r end.
Definition rsort (l : list R) : list R := fold_right rinsert [] l.

Lemma ninsert_fin x l : ninsert (Fin x) (map Fin l) = map Fin (rinsert x l).
Proof. induction l as [|y l IH]; [reflexivity|]. cbn. destruct (Rleb x y); cbn; [reflexivity|]. now rewrite IH. Qed.
Lemma nsort_fin l : nsort (map Fin l) = map Fin (rsort l).
Proof. induction l as [|y l IH]; [reflexivity|]. unfold nsort, rsort in *. cbn [map fold_right]. rewrite IH. apply ninsert_fin. Qed.
Lemma rinsert_perm x l : Permutation (x :: l) (rinsert x l).
Proof. induction l as [|y l IH]; [apply Permutation_refl|]. cbn. destruct (Rleb x y); [apply Permutation_refl|].
  eapply perm_trans; [apply perm_swap|]. now constructor. Qed.
Lemma rsort_perm l : Permutation l (rsort l).
Proof. induction l as [|y l IH]; [constructor|]. cbn. eapply perm_trans; [|apply rinsert_perm]. now constructor. Qed.
Lemma rinsert_sorted x l : StronglySorted Rle l -> StronglySorted Rle (rinsert x l).
Proof.
  induction 1 as [|y l H IH F]; [repeat constructor|]. cbn. destruct (Rleb x y) eqn:L; [apply Rleb_true in L|apply Rleb_false in L].
  - constructor; [now constructor|]. constructor; auto. eapply Forall_impl; [|exact F]. cbn; intros; lra.
  - constructor; auto. apply (Permutation_Forall (rinsert_perm x l)). constructor; [lra|auto].
Qed.
Lemma rsort_sorted l : StronglySorted Rle (rsort l).
Proof. induction l; cbn; [constructor|]. now apply rinsert_sorted. Qed.
Lemma rsort_length l : length (rsort l) = length l.
Proof. symmetry. apply Permutation_length, rsort_perm. Qed.

Lemma filter_perm {A} (f : A -> bool) l l' : Permutation l l' -> length (filter f l) = length (filter f l').
Proof. induction 1; cbn; auto; [destruct (f x); cbn; lia|destruct (f x), (f y); cbn; lia|lia]. Qed.
Lemma ranked_perm l l' i v : Permutation l l' -> is_ranked l i v -> is_ranked l' i v.
Proof. intros P (I & B). split; [eapply Permutation_in; eauto|]. unfold below, upto in *. now rewrite <- !(filter_perm _ _ _ P). Qed.
Lemma percentile_perm p l l' v : Permutation l l' -> is_percentile p l v -> is_percentile p l' v.
Proof. intros P (a & b & Ra & Rb & E). unfold is_percentile. rewrite <- (Permutation_length P). exists a, b. eauto using ranked_perm. Qed.

(** ** Ranks *)
Lemma ranked_sorted s i : StronglySorted Rle s -> (i < length s)%nat -> is_ranked s i (nth i s 0).
Proof.
  intros S. revert i. induction S as [|y s H IH F]; intros i L; cbn in L; [lia|]. rewrite Forall_forall in F.
  destruct i as [|i]; cbn [nth].
  - split; [now left|]. unfold below, upto. cbn. rewrite (proj2 (Rltb_false y y)) by lra. rewrite (proj2 (Rleb_true y y)) by lra. cbn.
    assert (E : filter (fun x => Rltb x y) s = []).
    { clear -F. induction s as [|a s IH]; [reflexivity|]. cbn. rewrite (proj2 (Rltb_false a y)) by (apply F; now left). apply IH. intros; apply F; now right. }
    rewrite E. cbn. lia.
  - destruct (IH i) as (I & B); [lia|]. split; [now right|]. pose proof (F _ I) as Le. unfold below, upto in *. cbn.
    rewrite (proj2 (Rleb_true _ _) Le). destruct (Rltb y (nth i s 0)); cbn; lia.
Qed.
Lemma ranked_exists l i : (i < length l)%nat -> is_ranked l i (nth i (rsort l) 0).
Proof. intros L. apply (ranked_perm (rsort l)); [symmetry; apply rsort_perm|]. apply ranked_sorted; [apply rsort_sorted|now rewrite rsort_length]. Qed.
Lemma count_mono (f g : R -> bool) l : (forall x, In x l -> f x = true -> g x = true) -> (length (filter f l) <= length (filter g l))%nat.
Proof. induction l as [|a l IH]; intros H; [cbn; lia|]. cbn. specialize (IH (fun x I => H x (or_intror I))). pose proof (H a (or_introl eq_refl)).
  destruct (f a); cbn; [rewrite H0 by auto; cbn; lia|destruct (g a); cbn; lia]. Qed.
Lemma ranked_mono l i j a b : is_ranked l i a -> is_ranked l j b -> (i <= j)%nat -> a <= b.
Proof.
  intros (_ & A) (_ & B) L. destruct (Rle_or_lt a b) as [|G]; [assumption|exfalso].
  assert (upto b l <= below a l)%nat; [|lia]. apply count_mono. intros x _ E. apply Rleb_true in E. apply Rltb_true. lra.
Qed.
Lemma below_mono l a b : a <= b -> (below a l <= below b l)%nat.
Proof. intros L. apply count_mono. intros x _ E. apply Rltb_true in E. apply Rltb_true. lra. Qed.
Lemma upto_mono l a b : a <= b -> (upto a l <= upto b l)%nat.
Proof. intros L. apply count_mono. intros x _ E. apply Rleb_true in E. apply Rleb_true. lra. Qed.

(** ** Percentiles *)
Lemma pos_lt n p : (0 < n)%nat -> (p <= 100)%nat -> ((n - 1) * p / 100 <= n - 1)%nat.
Proof. intros. apply Nat.div_le_upper_bound; nia. Qed.
Lemma frac_range m : 0 <= INR (m mod 100) / 100 < 1.
Proof. assert (m mod 100 < 100)%nat by (apply Nat.mod_upper_bound; lia). apply lt_INR in H. replace (INR 100) with 100 in H by (cbn; lra). pose proof (pos_INR (m mod 100)). lra. Qed.
Lemma between a b t : a <= b -> 0 <= t <= 1 -> a <= a + (b - a) * t <= b.
Proof. intros. nra. Qed.
Lemma percentile_exists p l : l <> [] -> (p <= 100)%nat -> exists v, is_percentile p l v.
Proof.
  intros N P. assert (0 < length l)%nat by (destruct l; [congruence|cbn; lia]). pose proof (pos_lt (length l) p H P).
  eexists. exists (nth ((length l - 1) * p / 100) (rsort l) 0), (nth (Nat.min (S ((length l - 1) * p / 100)) (length l - 1)) (rsort l) 0).
  repeat split; try (apply ranked_exists; lia); try reflexivity.
Qed.
Lemma percentile_mono p q l v w : l <> [] -> (p <= q <= 100)%nat -> is_percentile p l v -> is_percentile q l w -> v <= w.
Proof.
  intros N P (a & b & Ra & Rb & ->) (c & d & Rc & Rd & ->). assert (0 < length l)%nat by (destruct l; [congruence|cbn; lia]).
  set (m := ((length l - 1) * p)%nat) in *. set (m' := ((length l - 1) * q)%nat) in *. assert (m <= m')%nat by (subst m m'; nia).
  assert (m / 100 <= m' / 100)%nat by (apply Nat.div_le_mono; lia).
  pose proof (frac_range m). pose proof (frac_range m').
  assert (a <= b). { eapply ranked_mono; [exact Ra|exact Rb|]. pose proof (pos_lt (length l) p H ltac:(lia)). subst m. lia. }
  assert (c <= d). { eapply ranked_mono; [exact Rc|exact Rd|]. pose proof (pos_lt (length l) q H ltac:(lia)). subst m'. lia. }
  destruct (Nat.eq_dec (m / 100) (m' / 100)) as [E|D].
  - rewrite <- E in Rc, Rd. assert (c = a) by (apply Rle_antisym; eapply ranked_mono; eauto). assert (d = b) by (apply Rle_antisym; eapply ranked_mono; eauto). subst c d.
    assert (INR (m mod 100) <= INR (m' mod 100)). { apply le_INR. rewrite (Nat.div_mod m 100), (Nat.div_mod m' 100), E in H0 by lia. lia. }
    assert (INR (m mod 100) / 100 <= INR (m' mod 100) / 100) by lra. nra.
  - assert (b <= c). { eapply ranked_mono; [exact Rb|exact Rc|]. lia. }
    pose proof (between a b _ H4 (conj (proj1 H2) (Rlt_le _ _ (proj2 H2)))). pose proof (between c d _ H5 (conj (proj1 H3) (Rlt_le _ _ (proj2 H3)))). lra.
Qed.
Lemma percentile_unique p l v w : l <> [] -> (p <= 100)%nat -> is_percentile p l v -> is_percentile p l w -> v = w.
Proof. intros. apply Rle_antisym; eapply (percentile_mono p p); eauto. Qed.
Lemma percentile_range p l v lo hi : l <> [] -> (p <= 100)%nat -> is_percentile p l v -> Forall (fun x => lo <= x <= hi) l -> lo <= v <= hi.
Proof.
  intros N P (a & b & Ra & Rb & ->) F. rewrite Forall_forall in F. pose proof (F _ (proj1 Ra)). pose proof (F _ (proj1 Rb)).
  pose proof (frac_range ((length l - 1) * p)). nra.
Qed.
Lemma percentile_counts p l v : l <> [] -> (p <= 100)%nat -> is_percentile p l v ->
  ((length l - 1) * p < 100 * upto v l)%nat /\ (100 * below v l < (length l - 1) * p + 100)%nat.
Proof.
  intros N P (a & b & Ra & Rb & ->). assert (0 < length l)%nat by (destruct l; [congruence|cbn; lia]). pose proof (pos_lt (length l) p H P) as PL.
  set (m := ((length l - 1) * p)%nat) in *. pose proof (Nat.div_mod m 100 ltac:(lia)). pose proof (Nat.mod_upper_bound m 100 ltac:(lia)). pose proof (frac_range m).
  assert (a <= b). { eapply ranked_mono; [exact Ra|exact Rb|]. lia. }
  pose proof (between a b _ H3 (conj (proj1 H2) (Rlt_le _ _ (proj2 H2)))) as B. split.
  - pose proof (upto_mono l _ _ (proj1 B)). destruct Ra as (_ & A). lia.
  - destruct (Nat.eq_dec (m mod 100) 0) as [Z|Z].
    + rewrite Z. cbn [INR]. replace (a + (b - a) * (0 / 100)) with a by field. destruct Ra as (_ & A). lia.
    + pose proof (below_mono l _ _ (proj2 B)). destruct Rb as (_ & A). lia.
Qed.

(** ** The model computes them *)
Lemma no_nan l : has_nan (map Fin l) = false.
Proof. induction l; auto. Qed.
Lemma nth_fin l i : (i < length l)%nat -> nth i (map Fin l) NaN = Fin (nth i l 0).
Proof. intros L. rewrite (nth_indep _ NaN (Fin 0)) by now rewrite map_length. apply map_nth. Qed.
Lemma npercentile_ok p l : l <> [] -> (p <= 100)%nat -> exists v, npercentile p (map Fin l) = Fin v /\ is_percentile p l v.
Proof.
  intros N P. assert (0 < length l)%nat by (destruct l; [congruence|cbn; lia]). pose proof (pos_lt (length l) p H P).
  unfold npercentile. rewrite no_nan, nsort_fin, map_length, !nth_fin by (rewrite rsort_length; lia). eexists. split; [reflexivity|].
  do 2 eexists. split; [apply ranked_exists|split; [apply ranked_exists|reflexivity]]; lia.
Qed.
Lemma nmedian_ok l : l <> [] -> exists v, nmedian (map Fin l) = Fin v /\ is_percentile 50 l v.
Proof.
  intros N. assert (0 < length l)%nat by (destruct l; [congruence|cbn; lia]).
  unfold nmedian. rewrite no_nan, nsort_fin, map_length. unfold is_percentile.
  destruct (Nat.odd (length l)) eqn:O.
  - apply Nat.odd_spec in O. destruct O as [k E]. assert (D : (length l / 2 = k)%nat) by (rewrite E; symmetry; apply (Nat.div_unique _ _ _ 1); lia).
    rewrite D, nth_fin by (rewrite rsort_length; lia). eexists. split; [reflexivity|].
    assert (D2 : ((length l - 1) * 50 / 100 = k)%nat) by (rewrite E; symmetry; apply (Nat.div_unique _ _ _ 0); lia).
    assert (M2 : (((length l - 1) * 50) mod 100 = 0)%nat) by (rewrite E; symmetry; apply (Nat.mod_unique _ _ k); lia).
    rewrite D2, M2. do 2 eexists. split; [apply ranked_exists; lia|split; [apply ranked_exists; lia|]]. cbn [INR]. field.
  - assert (Ev : Nat.even (length l) = true) by (rewrite <- Nat.negb_odd, O; reflexivity). apply Nat.even_spec in Ev. destruct Ev as [k E].
    assert (D : (length l / 2 = k)%nat) by (rewrite E; symmetry; apply (Nat.div_unique _ _ _ 0); lia).
    rewrite D, !nth_fin by (rewrite rsort_length; lia). cbn [nadd]. rewrite ndiv_fin by (intros X; lra). eexists. split; [reflexivity|].
    assert (D2 : ((length l - 1) * 50 / 100 = k - 1)%nat) by (rewrite E; symmetry; apply (Nat.div_unique _ _ _ 50); lia).
    assert (M2 : (((length l - 1) * 50) mod 100 = 50)%nat) by (rewrite E; symmetry; apply (Nat.mod_unique _ _ (k-1)); lia).
    rewrite D2, M2. replace (Nat.min (S (k - 1)) (length l - 1)) with k by lia.
    do 2 eexists. split; [apply ranked_exists; lia|split; [apply ranked_exists; lia|]]. replace (INR 50) with 50 by (cbn; lra). field.
Qed.

Lemma column_fins n pdf j : Forall (fun row => length row = n) pdf -> (j < n)%nat -> column (fins pdf) j = map Fin (draws_at pdf j).
Proof. intros F L. unfold column, fins, draws_at. rewrite !map_map. apply map_ext_in. intros row I. rewrite Forall_forall in F. apply nth_fin. rewrite (F _ I). exact L. Qed.
Lemma pick_all (f : list num -> num) (P : nat -> R -> Prop) g k n : (forall j, (k <= j < k + n)%nat -> exists v, f (g j) = Fin v /\ P j v) ->
  exists vs, map f (map g (seq k n)) = map Fin vs /\ length vs = n /\ forall j, (j < n)%nat -> P (k + j)%nat (nth j vs 0).
Proof.
  revert k. induction n as [|n IH]; intros k H; cbn; [exists []; repeat split; intros; lia|].
  destruct (H k ltac:(lia)) as (v & E & Pv). destruct (IH (S k)) as (vs & Es & L & Ps); [intros; apply H; lia|].
  exists (v :: vs). rewrite E, Es. repeat split; [cbn; lia|]. intros [|j] J; cbn; [now rewrite Nat.add_0_r|]. rewrite Nat.add_succ_r. apply (Ps j). lia.
Qed.
Lemma plot_pdf_ok x pdf label color loglog : good_draws (length x) pdf ->
  exists ds, plot_pdf x (fins pdf) label color loglog = (ds, Ok tt) /\ draws_curve loglog label color x pdf ds.
Proof.
  intros (N & F). assert (W : width (fins pdf) = length x).
  { destruct pdf as [|r pdf]; [congruence|]. cbn. rewrite map_length. now inversion F. }
  assert (NE : forall j, draws_at pdf j <> []) by (intros j; destruct pdf; [congruence|cbn; congruence]).
  assert (COL : forall j, (0 <= j < 0 + length x)%nat -> column (fins pdf) j = map Fin (draws_at pdf j)) by (intros j J; apply (column_fins (length x)); [assumption|lia]).
  unfold plot_pdf. rewrite W, Nat.eqb_refl. cbn [negb].
  destruct (pick_all nmedian (fun j => is_percentile 50 (draws_at pdf j)) (column (fins pdf)) 0 (length x)) as (med & Em & Lm & Hm); [intros j J; rewrite COL by lia; now apply nmedian_ok|].
  destruct (pick_all (npercentile 5) (fun j => is_percentile 5 (draws_at pdf j)) (column (fins pdf)) 0 (length x)) as (low & El & Ll & Hl); [intros j J; rewrite COL by lia; apply npercentile_ok; [auto|lia]|].
  destruct (pick_all (npercentile 95) (fun j => is_percentile 95 (draws_at pdf j)) (column (fins pdf)) 0 (length x)) as (high & Eh & Lh & Hh); [intros j J; rewrite COL by lia; apply npercentile_ok; [auto|lia]|].
  rewrite Em, El, Eh. destruct pdf as [|r pdf]; [congruence|]. unfold fins. cbn [map d_then d_do fst snd app].
  eexists. split; [reflexivity|]. exists med, low, high. split; [reflexivity|]. split; [exact Lm|split; [exact Ll|split; [exact Lh|]]]. intros j J. split; [exact (Hm j J)|split; [exact (Hl j J)|exact (Hh j J)]].
Qed.

(** ** Several populations *)
Lemma d_then_ok s k : d_then (s, Ok tt) k = (s ++ fst k, snd k).
Proof. reflexivity. Qed.
Lemma each_app ms s0 ds : Forall2 (fun m d => m = (d, Ok tt)) ms ds -> fold_left d_then ms (s0, Ok tt) = (s0 ++ concat ds, Ok tt).
Proof.
  intros H. revert s0. induction H as [|m d ms ds -> H IH]; intros s0; cbn; [now rewrite app_nil_r|]. rewrite IH. now rewrite <- app_assoc.
Qed.
Lemma each_err ms e s : fold_left d_then ms (s, Err e) = (s, Err e).
Proof. induction ms; auto. Qed.
Lemma fold_app ms s : fold_left d_then ms (s, Ok tt) = (s ++ fst (fold_left d_then ms ([], Ok tt)), snd (fold_left d_then ms ([], Ok tt))).
Proof.
  revert s. induction ms as [|[d r] ms IH]; intros s; cbn; [now rewrite app_nil_r|]. destruct r as [[]|e].
  - rewrite IH, (IH d). cbn. now rewrite app_assoc.
  - rewrite !each_err. reflexivity.
Qed.
Definition each_from x pdfs names colors loglog k m := fold_left d_then (map (fun i => at_index pdfs i (fun pdf => at_index names i (fun nm => at_index colors i (fun co => plot_pdf x pdf nm co loglog)))) (seq k m)) ([], Ok tt).
Lemma each_cons x pdf pdfs nm names co colors loglog m : plot_each x (pdf :: pdfs) (nm :: names) (co :: colors) loglog (S m) = d_then (plot_pdf x pdf nm co loglog) (plot_each x pdfs names colors loglog m).
Proof.
  unfold plot_each. cbn [seq map fold_left at_index nth_error]. destruct (plot_pdf x pdf nm co loglog) as [d [[]|e]].
  - cbn [d_then]. rewrite app_nil_l. rewrite <- seq_shift, map_map. cbn [fst snd]. rewrite fold_app. reflexivity.
  - cbn [d_then app fst snd]. now rewrite each_err.
Qed.
Lemma plot_each_ok x loglog pdfs : Forall (good_draws (length x)) pdfs -> forall names colors, (length pdfs <= length names)%nat -> (length pdfs <= length colors)%nat ->
  exists ds, plot_each x (map fins pdfs) names colors loglog (length pdfs) = (ds, Ok tt) /\ draws_all loglog x pdfs names colors ds.
Proof.
  induction 1 as [|pdf pdfs G F IH]; intros names colors LN LC; cbn in LN, LC.
  - exists []. split; [reflexivity|constructor].
  - destruct names as [|nm names]; [cbn in LN; lia|]. destruct colors as [|co colors]; [cbn in LC; lia|].
    destruct (plot_pdf_ok x pdf nm co loglog G) as (ds & E & D). destruct (IH names colors) as (ds' & E' & D'); [cbn in *; lia..|].
    exists (ds ++ ds'). cbn [map length]. rewrite each_cons, E, E'. split; [reflexivity|]. now constructor.
Qed.
(** fewer names, colors or densities than iterations: an error *)
Lemma plot_each_short x loglog m : forall pdfs names colors, Forall (good_draws (length x)) pdfs -> (length pdfs < m \/ length names < m \/ length colors < m)%nat ->
  snd (plot_each x (map fins pdfs) names colors loglog m) = Err IndexError.
Proof.
  induction m as [|m IH]; intros pdfs names colors F L; [lia|]. destruct pdfs as [|pdf pdfs], names as [|nm names], colors as [|co colors];
  try (unfold plot_each; cbn [seq map fold_left at_index nth_error d_then app fst snd]; now rewrite each_err).
  inversion F as [|? ? G F']; subst. destruct (plot_pdf_ok x pdf nm co loglog G) as (ds & E & D). cbn [map]. rewrite each_cons, E. cbn [d_then snd]. apply IH; [assumption|cbn in L; lia].
Qed.

Lemma limits_ok x : x <> [] -> limits x = ([], Ok tt).
Proof. destruct x; [congruence|reflexivity]. Qed.
Lemma saving_ok save f : saving save f = (saved save f, Ok tt).
Proof. destruct save; reflexivity. Qed.
Lemma mass_figures mp qp m1 q names label dir save colors : Forall (good_draws (length m1)) mp -> Forall (good_draws (length q)) qp -> length qp = length mp ->
  (length mp <= length names)%nat -> (length mp <= length colors)%nat -> m1 <> [] ->
  exists dm dq, plot_mass_pdfs (map fins mp) (map fins qp) m1 q names label dir save colors =
    (dm ++ saved save (dir ++ "/mass_pdf_" ++ label ++ ".png") ++ dq ++ saved save (dir ++ "/mass_ratio_pdf_" ++ label ++ ".png"), Ok tt) /\
    draws_all true m1 mp names colors dm /\ draws_all false q qp names colors dq.
Proof.
  intros Gm Gq L LN LC N. destruct (plot_each_ok m1 true mp Gm names colors LN LC) as (dm & Em & Dm).
  rewrite <- L in LN, LC. destruct (plot_each_ok q false qp Gq names colors LN LC) as (dq & Eq & Dq). rewrite L in Eq.
  exists dm, dq. unfold plot_mass_pdfs. rewrite map_length, Em, Eq, limits_ok, !saving_ok by assumption. cbn [d_then fst snd app]. auto.
Qed.
Lemma spin_figures ap tp aa cc names label dir save colors (secondary : bool) : Forall (good_draws (length aa)) ap -> Forall (good_draws (length cc)) tp ->
  (length ap <= length names)%nat -> (length ap <= length colors)%nat -> (length tp <= length names)%nat -> (length tp <= length colors)%nat ->
  exists da dt, plot_spin_pdfs (map fins ap) (map fins tp) aa cc names label dir save colors secondary =
    (da ++ saved save (dir ++ "/spin_mag" ++ (if secondary then "2" else "1") ++ "_pdf_" ++ label ++ ".png") ++
     dt ++ saved save (dir ++ "/cos_tilt" ++ (if secondary then "2" else "1") ++ "_pdf_" ++ label ++ ".png"), Ok tt) /\
    draws_all false aa ap names colors da /\ draws_all false cc tp names colors dt.
Proof.
  intros Ga Gt L1 L2 L3 L4. destruct (plot_each_ok aa false ap Ga names colors L1 L2) as (da & Ea & Da). destruct (plot_each_ok cc false tp Gt names colors L3 L4) as (dt & Et & Dt).
  exists da, dt. unfold plot_spin_pdfs. rewrite !map_length, Ea, Et, !saving_ok. cbn [d_then fst snd app]. auto.
Qed.
Lemma rate_figure zp z label dir save : good_draws (length z) zp -> z <> [] ->
  exists d, plot_rate_of_z_pdfs (fins zp) z label dir save = (d ++ saved save (dir ++ "/redshift_pdf_" ++ label ++ ".png"), Ok tt) /\ draws_curve true "redshift" "blue" z zp d.
Proof.
  intros G N. destruct (plot_pdf_ok z zp "redshift" "blue" true G) as (d & E & D). exists d. unfold plot_rate_of_z_pdfs. rewrite E, limits_ok, saving_ok by assumption. cbn [d_then fst snd app]. auto.
Qed.
(** with more populations than colors or names nothing is saved and an error is raised *)
Lemma then_err m k e : snd m = Err e -> d_then m k = m.
Proof. destruct m as [s [[]|e']]; cbn; congruence. Qed.
Lemma mass_too_many mp qp m1 q names label dir save colors : Forall (good_draws (length m1)) mp -> (length names < length mp \/ length colors < length mp)%nat ->
  snd (plot_mass_pdfs (map fins mp) qp m1 q names label dir save colors) = Err IndexError.
Proof. intros G L. unfold plot_mass_pdfs. rewrite map_length. assert (E := plot_each_short m1 true (length mp) mp names colors G ltac:(lia)). now rewrite (then_err _ _ _ E). Qed.
Lemma mass_ratio_missing mp qp m1 q names label dir save colors : Forall (good_draws (length m1)) mp -> Forall (good_draws (length q)) qp -> (length qp < length mp)%nat ->
  (length mp <= length names)%nat -> (length mp <= length colors)%nat -> m1 <> [] ->
  snd (plot_mass_pdfs (map fins mp) (map fins qp) m1 q names label dir save colors) = Err IndexError.
Proof.
  intros Gm Gq L LN LC N. destruct (plot_each_ok m1 true mp Gm names colors LN LC) as (dm & Em & _). unfold plot_mass_pdfs. rewrite map_length, Em, limits_ok, saving_ok by assumption.
  assert (E := plot_each_short q false (length mp) qp names colors Gq ltac:(lia)). cbn [d_then fst snd app]. now rewrite (then_err _ _ _ E).
Qed.
(** more mass-ratio densities than mass densities: the last are not drawn *)
Lemma each_firstn x pdfs names colors loglog m : plot_each x pdfs names colors loglog m = plot_each x (firstn m pdfs) names colors loglog m.
Proof.
  unfold plot_each. f_equal. apply map_ext_in. intros i I. apply in_seq in I. unfold at_index. assert (E : nth_error (firstn m pdfs) i = nth_error pdfs i); [|now rewrite E].
  clear -I. destruct I as [_ I]. cbn in I. revert m I pdfs. induction i as [|i IH]; intros [|m] I [|p pdfs]; try lia; try reflexivity. cbn. apply IH. lia.
Qed.
Lemma mass_ratio_extra mp qp m1 q names label dir save colors :
  plot_mass_pdfs mp qp m1 q names label dir save colors = plot_mass_pdfs mp (firstn (length mp) qp) m1 q names label dir save colors.
Proof. unfold plot_mass_pdfs. now rewrite (each_firstn q qp). Qed.

(** ** What follows for the drawn curves *)
Lemma curve_ordered loglog label color x pdf ds : good_draws (length x) pdf -> draws_curve loglog label color x pdf ds ->
  exists med low high, ds = [Curve loglog label color x (map Fin med); Band color x (map Fin low) (map Fin high)] /\
  forall j, (j < length x)%nat -> nth j low 0 <= nth j med 0 <= nth j high 0 /\
    (forall lo hi, Forall (fun row => lo <= nth j row 0 <= hi) pdf -> lo <= nth j low 0 /\ nth j high 0 <= hi) /\
    (100 * below (nth j low 0%R) (draws_at pdf j) < 5 * (length pdf - 1) + 100)%nat /\
    (95 * (length pdf - 1) < 100 * upto (nth j high 0%R) (draws_at pdf j))%nat.
Proof.
  intros (N & F) (med & low & high & -> & Lm & Ll & Lh & H). exists med, low, high. split; [reflexivity|]. intros j J. destruct (H j J) as (Pm & Pl & Ph).
  assert (NE : draws_at pdf j <> []) by (destruct pdf; [congruence|cbn; congruence]).
  assert (LD : length (draws_at pdf j) = length pdf) by apply map_length.
  split; [split; [eapply (percentile_mono 5 50)|eapply (percentile_mono 50 95)]; eauto; lia|]. split; [|split].
  - intros lo hi G. assert (G' : Forall (fun v => lo <= v <= hi) (draws_at pdf j)) by (unfold draws_at; now apply Forall_map).
    split; [apply (percentile_range 5 _ _ lo hi NE ltac:(lia) Pl G')|apply (percentile_range 95 _ _ lo hi NE ltac:(lia) Ph G')].
  - destruct (percentile_counts 5 _ _ NE ltac:(lia) Pl) as [_ B]. rewrite LD in B. lia.
  - destruct (percentile_counts 95 _ _ NE ltac:(lia) Ph) as [B _]. rewrite LD in B. lia.
Qed.
Lemma list_ext_R (a b : list R) : length a = length b -> (forall j, (j < length a)%nat -> nth j a 0 = nth j b 0) -> a = b.
Proof. intros L H. apply (nth_ext a b 0 0 L H). Qed.
Lemma curve_order_free loglog label color x pdf pdf' : good_draws (length x) pdf -> Permutation pdf pdf' ->
  plot_pdf x (fins pdf) label color loglog = plot_pdf x (fins pdf') label color loglog.
Proof.
  intros G P. assert (G' : good_draws (length x) pdf').
  { destruct G as (N & F). split; [intros ->; apply N; now apply Permutation_nil, Permutation_sym|eapply Permutation_Forall; eauto]. }
  destruct (plot_pdf_ok x pdf label color loglog G) as (ds & -> & (med & low & high & -> & Lm & Ll & Lh & H)).
  destruct (plot_pdf_ok x pdf' label color loglog G') as (ds' & -> & (med' & low' & high' & -> & Lm' & Ll' & Lh' & H')).
  assert (NE : forall j, draws_at pdf' j <> []) by (intros j; destruct G' as (N & _); destruct pdf'; [congruence|cbn; congruence]).
  assert (PD : forall j, Permutation (draws_at pdf j) (draws_at pdf' j)) by (intros j; now apply Permutation_map).
  assert (med = med') as -> by (apply list_ext_R; [congruence|]; intros j J; rewrite Lm in J; destruct (H j J) as (A & _), (H' j J) as (A' & _); eapply (percentile_unique 50); eauto using percentile_perm; lia).
  assert (low = low') as -> by (apply list_ext_R; [congruence|]; intros j J; rewrite Ll in J; destruct (H j J) as (_ & A & _), (H' j J) as (_ & A' & _); eapply (percentile_unique 5); eauto using percentile_perm; lia).
  assert (high = high') as -> by (apply list_ext_R; [congruence|]; intros j J; rewrite Lh in J; destruct (H j J) as (_ & _ & A), (H' j J) as (_ & _ & A'); eapply (percentile_unique 95); eauto using percentile_perm; lia).
  reflexivity.
Qed.
(** a NaN among the draws at a grid point makes median and band NaN there *)
Lemma nan_column l : has_nan l = true -> nmedian l = NaN /\ npercentile 5 l = NaN /\ npercentile 95 l = NaN.
Proof. intros H. unfold nmedian, npercentile. now rewrite H. Qed.
