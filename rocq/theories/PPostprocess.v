(** Proofs about the posterior predictive curves. *)
From Verif Require Export SpecPostprocess.
From Verif Require Import ArrFacts NumFacts PDistributions PParametric PBSplineGauge PBSplines PSplinePert PNumpyroDist PConstruct Calc.
From Verif Require Import Spec.
Open Scope R_scope.

(** ** The loop over the draws *)
Lemma each_map {D E O} (f : D -> num -> num -> result O) (h : E -> D) ds : forall rs fs, each_draw f (map h ds) rs fs = each_draw (fun d => f (h d)) ds rs fs.
Proof. induction ds as [|d ds IH]; intros [|r rs] [|q fs]; cbn; auto. destruct (f (h d) r q); cbn [rbind]; auto. rewrite IH. auto. Qed.
Lemma each_ok {D O} (f : D -> num -> num -> result O) (P : D -> R -> O -> Prop) ds : forall rs fs, length rs = length ds -> length fs = length ds ->
  (forall d r q, In d ds -> exists o, f d (Fin r) (Fin q) = Ok o /\ P d (r * q) o) ->
  exists os, each_draw f ds (map Fin rs) (map Fin fs) = Ok os /\ length os = length ds /\
    forall i d, nth_error ds i = Some d -> exists o, nth_error os i = Some o /\ P d (nth i rs 0 * nth i fs 0) o.
Proof.
  induction ds as [|d ds IH]; intros [|r rs] [|q fs]; intros LR LF H; try discriminate.
  - exists []. split; auto. split; auto. intros [|i] d E; discriminate.
  - cbn in LR, LF. injection LR as LR. injection LF as LF. destruct (H d r q (or_introl eq_refl)) as (o & E & PO).
    destruct (IH rs fs LR LF) as (os & EO & L & K); [intros; apply H; right; auto|].
    exists (o :: os). cbn [each_draw map]. rewrite E. cbn [rbind]. rewrite EO. cbn [rbind length]. split; auto. split; [f_equal; auto|].
    intros [|i] d' E'; cbn [nth_error nth] in *; [injection E' as <-; eauto|]. apply K; auto.
Qed.
Lemma ones_given n o : one_per_draw n o -> exists l, ones_unless n (given o) = map Fin l /\ length l = n /\ forall i, (i < n)%nat -> nth i l 0 = per_draw o i.
Proof.
  destruct o as [l|]; cbn.
  - intros H. exists l. auto.
  - intros _. exists (repeat 1 n). split; [unfold ones_unless; cbn; clear; induction n as [|n IH]; cbn; [|rewrite IH]; auto|]. split; [apply repeat_length|]. intros i Hi. rewrite (nth_indep _ 0 1) by (rewrite repeat_length; auto). apply nth_repeat.
Qed.
Lemma all_ok {D E O} (h : E -> D) (f : D -> num -> num -> result O) (P : E -> R -> O -> Prop) ds rate frac : one_per_draw (length ds) rate -> one_per_draw (length ds) frac ->
  (forall d r q, In d ds -> exists o, f (h d) (Fin r) (Fin q) = Ok o /\ P d (r * q) o) ->
  exists os, all_draws f (map h ds) (given rate) (given frac) = Ok os /\ length os = length ds /\
    forall i d, nth_error ds i = Some d -> exists o, nth_error os i = Some o /\ P d (total_rate rate frac i) o.
Proof.
  intros HR HF H. unfold all_draws. rewrite map_length. destruct (ones_given _ _ HR) as (rs & -> & LR & NR). destruct (ones_given _ _ HF) as (fs & -> & LF & NF).
  rewrite each_map. destruct (each_ok (fun d => f (h d)) P ds rs fs LR LF H) as (os & EO & L & K). exists os. split; auto. split; auto.
  intros i d Ei. assert (i < length ds)%nat by (apply nth_error_Some; congruence). destruct (K i d Ei) as (o & Eo & Po). exists o. split; auto.
  unfold total_rate. rewrite <- NR, <- NF by auto. auto.
Qed.

(** ** One curve *)
Lemma spin_curve_ok xs (g : R -> R) r f : 0 < trapezoid xs (map g xs) -> rate_curve xs g (r * f) (spin_curve (map (fun x => Fin (g x)) xs) (map Fin xs) (Fin r) (Fin f)).
Proof.
  intros H. exists (r * f / trapezoid xs (map g xs)). split; [|split; auto].
  - unfold spin_curve. cbv zeta. rewrite <- (map_map g Fin), ntrapz_fin, !map_map. apply map_ext. intros x. rewrite !nmul_fin, ndiv_fin by lra. apply (f_equal Fin). field. lra.
  - rewrite <- (map_map g (fun y => r * f / trapezoid xs (map g xs) * y)), trapezoid_scal. field. lra.
Qed.
Lemma mass_curve_ok xs (g : R -> R) r f : 0 < trapezoid xs (map g xs) -> rate_curve xs g (r * f) (mass_curve (map (fun x => Fin (g x)) xs) (map Fin xs) (Fin r) (Fin f)).
Proof.
  intros H. exists (r * f / trapezoid xs (map g xs)). split; [|split; auto].
  - unfold mass_curve. cbv zeta. rewrite <- (map_map g Fin), ntrapz_fin, !map_map. apply map_ext. intros x. rewrite !nmul_fin, ndiv_fin by lra. apply (f_equal Fin). field. lra.
  - rewrite <- (map_map g (fun y => r * f / trapezoid xs (map g xs) * y)), trapezoid_scal. field. lra.
Qed.

(** ** The mesh *)
Lemma mesh_pairs ms qs : combine (mesh_m (map Fin ms) (map Fin qs)) (mesh_q (map Fin ms) (map Fin qs)) = flat_map (fun q => map (fun m => (Fin m, Fin q)) ms) qs.
Proof.
  unfold mesh_m, mesh_q. induction qs as [|q qs IH]; cbn [map flat_map]; auto. rewrite <- IH.
  assert (G : forall (a b c d : list num), length a = length b -> combine (a ++ c) (b ++ d) = (combine a b ++ combine c d)%list).
  { induction a; destruct b; intros; cbn in *; try discriminate; auto. rewrite IHa by (injection H; auto). auto. }
  rewrite G by (rewrite !map_length; auto). f_equal. rewrite map_map. clear. induction ms; cbn; auto. rewrite IHms. auto.
Qed.
Lemma mesh_m_eq ms qs : mesh_m (map Fin ms) (map Fin qs) = flat_map (fun _ => map Fin ms) qs.
Proof. unfold mesh_m. induction qs; cbn; auto. rewrite IHqs. auto. Qed.
Lemma mesh_q_eq ms qs : mesh_q (map Fin ms) (map Fin qs) = flat_map (fun q => map (fun _ => Fin q) ms) qs.
Proof. unfold mesh_q. induction qs; cbn [map flat_map]; auto. rewrite IHqs, map_map. auto. Qed.
Lemma flat_ext {A B} (f g : A -> list B) l : (forall x, In x l -> f x = g x) -> flat_map f l = flat_map g l.
Proof. induction l; cbn; intros; auto. rewrite H by auto. rewrite IHl; auto. Qed.
Lemma map2_flat {A B C E G} (h : A -> B -> C) (f : E -> G -> A) (g : E -> G -> B) ms qs :
  map2 h (flat_map (fun q => map (f q) ms) qs) (flat_map (fun q => map (g q) ms) qs) = flat_map (fun q => map (fun m => h (f q m) (g q m)) ms) qs.
Proof.
  induction qs as [|q qs IH]; cbn [flat_map]; auto. rewrite <- IH.
  assert (K : forall ms' (c : list A) (d : list B), map2 h (map (f q) ms' ++ c) (map (g q) ms' ++ d) = (map (fun m => h (f q m) (g q m)) ms' ++ map2 h c d)%list).
  { induction ms'; intros; cbn; auto. rewrite IHms'. auto. }
  apply K.
Qed.
Lemma map_flat {A B C} (h : B -> C) (f : A -> list B) l : map h (flat_map f l) = flat_map (fun x => map h (f x)) l.
Proof. induction l; cbn; auto. rewrite map_app, IHl. auto. Qed.
Lemma rows_flat {A B} (F : B -> A -> num) (ms : list A) (qs : list B) : rows_of (length qs) (length ms) (flat_map (fun q => map (F q) ms) qs) = map (fun q => map (F q) ms) qs.
Proof.
  unfold rows_of. induction qs as [|q qs IH]; auto. cbn [length map flat_map]. rewrite <- cons_seq, <- seq_shift, map_cons, map_map. f_equal.
  - cbn [Nat.mul skipn]. rewrite firstn_app, map_length, Nat.sub_diag, firstn_O, app_nil_r, firstn_all2; auto. rewrite map_length. auto.
  - rewrite <- IH. apply map_ext. intros i. f_equal. replace (S i * length ms)%nat with (length (map (F q) ms) + i * length ms)%nat by (rewrite map_length; auto).
    rewrite skipn_app. rewrite skipn_all2 by lia. cbn [app]. f_equal. lia.
Qed.
Lemma axis0 ms qs (J : R -> R -> R) : trapz_axis0 (map (fun q => map (fun m => Fin (J m q)) ms) qs) (length ms) (map Fin qs) = map (fun m => Fin (marginal_m qs J m)) ms.
Proof.
  unfold trapz_axis0. rewrite (map_nth_seq (fun m => Fin (marginal_m qs J m)) ms 0). apply map_ext_in. intros j Hj. apply in_seq in Hj.
  rewrite map_map. unfold marginal_m. rewrite <- ntrapz_fin, map_map. f_equal. apply map_ext. intros q.
  rewrite (PBSplines.nth_map' _ _ _ _ 0) by lia. auto.
Qed.
Lemma axis1 ms qs (J : R -> R -> R) : trapz_axis1 (map (fun q => map (fun m => Fin (J m q)) ms) qs) (map Fin ms) = map (fun q => Fin (marginal_q ms J q)) qs.
Proof. unfold trapz_axis1. rewrite map_map. apply map_ext. intros q. unfold marginal_q. rewrite <- ntrapz_fin, map_map. auto. Qed.

(** nonnegative on the grid, positive at one of its points *)
Lemma marginals_positive ms qs (J : R -> R -> R) m0 q0 : increasing ms -> increasing qs -> (2 <= length ms)%nat -> (2 <= length qs)%nat ->
  (forall m q, In m ms -> In q qs -> 0 <= J m q) -> In m0 ms -> In q0 qs -> 0 < J m0 q0 ->
  0 < trapezoid ms (map (marginal_m qs J) ms) /\ 0 < trapezoid qs (map (marginal_q ms J) qs).
Proof.
  intros IM IQ LM LQ NN Hm Hq HP. split.
  - apply trapezoid_pos_some; auto; [rewrite map_length; auto| |].
    + intros y Hy. apply in_map_iff in Hy as (m & <- & Hm'). apply trapezoid_nonneg; auto. intros y Hy. apply in_map_iff in Hy as (q & <- & Hq'). auto.
    + exists (marginal_m qs J m0). split; [apply in_map; auto|]. apply trapezoid_pos_some; auto; [rewrite map_length; auto| |exists (J m0 q0); split; auto; apply in_map; auto].
      intros y Hy. apply in_map_iff in Hy as (q & <- & Hq'). auto.
  - apply trapezoid_pos_some; auto; [rewrite map_length; auto| |].
    + intros y Hy. apply in_map_iff in Hy as (q & <- & Hq'). apply trapezoid_nonneg; auto. intros y Hy. apply in_map_iff in Hy as (m & <- & Hm'). auto.
    + exists (marginal_q ms J q0). split; [apply in_map; auto|]. apply trapezoid_pos_some; auto; [rewrite map_length; auto| |exists (J m0 q0); split; auto; apply (in_map (fun m => J m q0)); auto].
      intros y Hy. apply in_map_iff in Hy as (m & <- & Hm'). auto.
Qed.
Lemma mass_curves_ok ms qs (J : R -> R -> R) r f m0 q0 : increasing ms -> increasing qs -> (2 <= length ms)%nat -> (2 <= length qs)%nat ->
  (forall m q, In m ms -> In q qs -> 0 <= J m q) -> In m0 ms -> In q0 qs -> 0 < J m0 q0 ->
  let o := mass_curves (map Fin ms) (map Fin qs) (flat_map (fun q => map (fun m => Fin (J m q)) ms) qs) (Fin r) (Fin f) in
  rate_curve ms (marginal_m qs J) (r * f) (fst o) /\ rate_curve qs (marginal_q ms J) (r * f) (snd o).
Proof.
  intros IM IQ LM LQ NN Hm Hq HP. destruct (marginals_positive ms qs J m0 q0 IM IQ LM LQ NN Hm Hq HP) as [P1 P2].
  unfold mass_curves. rewrite !map_length. cbv zeta. cbn [fst snd]. rewrite (rows_flat (fun q m => Fin (J m q))), axis0, axis1.
  split; apply mass_curve_ok; auto.
Qed.
