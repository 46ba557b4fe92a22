(** The Beta magnitude curves of any draws, one by one: a curve where both shapes exceed one, NaN at the end where one does not. *)
From Coq Require Import Lia Lra.
From Verif Require Export PPostprocess3.
From Verif Require Import ArrFacts NumFacts PDistributions PMainPeak PSplinePert.
From Verif Require Import Spec.
Open Scope R_scope.

Lemma lin_tail a b : a < b -> exists pre x, rlinspace a b 800 = pre ++ x :: b :: nil /\ a < x < b.
Proof.
  intros H. pose proof (rlinspace_length a b 800) as L. pose proof (rlinspace_increasing a b 800 H) as I. pose proof (rlinspace_first a b 800 ltac:(apply (Nat.leb_le 1 800); reflexivity)) as F. pose proof (rlinspace_last a b 800 two_eight) as E.
  assert (G : (3 <= 800)%nat) by (apply (Nat.leb_le 3 800); reflexivity). revert L I F E G. generalize 800%nat. intros n. generalize (rlinspace a b n). intros l L I F E G.
  destruct (exists_last (l := l)) as (l1 & y & ->); [intros ->; cbn in L; lia|]. destruct (exists_last (l := l1)) as (pre & x & ->); [intros ->; cbn in L; lia|].
  rewrite <- app_assoc in *. cbn [app] in *. rewrite app_length in L. cbn [length] in L. replace (n - 1)%nat with (length pre + 1)%nat in E by lia. rewrite app_nth2_plus in E. cbn [nth] in E. subst y.
  exists pre, x. split; auto. 
  assert (X : nth (length pre) (pre ++ x :: b :: nil) 0 = x) by (rewrite app_nth2, Nat.sub_diag by lia; reflexivity).
  assert (B : nth (length pre + 1) (pre ++ x :: b :: nil) 0 = b) by (rewrite app_nth2_plus; reflexivity). split.
  - enough (nth 0 (pre ++ x :: b :: nil) 0 < nth (length pre) (pre ++ x :: b :: nil) 0) by lra. apply increasing_lt; [auto|lia|rewrite app_length; cbn; lia].
  - enough (nth (length pre) (pre ++ x :: b :: nil) 0 < nth (length pre + 1) (pre ++ x :: b :: nil) 0) by lra. apply increasing_lt; [auto|lia|rewrite app_length; cbn; lia].
Qed.
Lemma nsum_has_inf l : In PInf l -> nsum l = PInf \/ nsum l = NaN.
Proof.
  induction l as [|v l IH]; [intros []|]. intros [->|H]; [apply nadd_pinf|]. change (nsum (v :: l)) with (nadd v (nsum l)). destruct (IH H) as [-> | ->]; destruct v; cbn; auto.
Qed.
Lemma terms_tail (d : R -> num) pre x b y : d x = Fin y -> d b = PInf -> x < b ->
  In PInf (ntrapz_terms (map d (pre ++ x :: b :: nil)) (map Fin (pre ++ x :: b :: nil))).
Proof.
  intros Ex Eb H. induction pre as [|u pre IH].
  - cbn [app map ntrapz_terms]. left. rewrite Ex, Eb, nsub_fin. cbn [nadd nmul]. unfold sinf. rewrite Rltb_t by lra. reflexivity.
  - destruct pre as [|v pre]; right; exact IH.
Qed.
Lemma betadist_nan_right betaln a s lnB fl : betaln (Fin a) (Fin 1) = Fin lnB -> 0 < s -> betadist betaln (Fin s) (Fin a) (Fin 1) (Fin s) fl = NaN.
Proof.
  intros HB Hs. unfold betadist, nge. cbn [nle]. rewrite !Rleb_t by lra. cbn [andb nwhere]. rewrite HB, !nsub_fin. replace (s - s) with 0 by ring. replace (1 - 1) with 0 by ring.
  rewrite nlog_zero, !nlog_fin by lra. rewrite nmul_fin. cbn [nmul]. rewrite sinf_0. reflexivity.
Qed.
Lemma lost_ratio t n : n = PInf \/ n = NaN -> ndiv (nmul (Fin t) PInf) n = NaN.
Proof. intros [-> | ->]; cbn [nmul]; unfold sinf; destruct (Rltb 0 t); auto; destruct (Rltb t 0); auto. Qed.
Lemma curve_right betaln a b s lnB r q : betaln (Fin a) (Fin b) = Fin lnB -> 0 < s -> b <= 1 ->
  last (spin_curve (map (fun x => betadist betaln x (Fin a) (Fin b) (Fin s) (Fin 0)) (map Fin (rlinspace 0 s 800))) (map Fin (rlinspace 0 s 800)) (Fin r) (Fin q)) (Fin 0) = NaN.
Proof.
  intros HB Hs Hb. destruct (lin_tail 0 s Hs) as (pre & x & -> & Hx). unfold spin_curve. cbv zeta. rewrite (map_map Fin (fun x => betadist betaln x (Fin a) (Fin b) (Fin s) (Fin 0))). set (d := fun x : R => betadist betaln (Fin x) (Fin a) (Fin b) (Fin s) (Fin 0)). set (n := ntrapz _ _).
  replace (last _ _) with (ndiv (nmul (nmul (Fin r) (Fin q)) (d s)) n).
  2:{ rewrite map_map. clearbody n. rewrite map_app. cbn [map]. change (?u :: ?v :: nil) with ((u :: nil) ++ v :: nil)%list. rewrite app_assoc, last_last. reflexivity. }
  rewrite nmul_fin. destruct (Req_dec b 1) as [->|N].
  - unfold d. rewrite (betadist_nan_right _ _ _ _ _ HB Hs). reflexivity.
  - assert (E : d s = PInf) by (apply (betadist_inf_right betaln a b s lnB); auto; lra). rewrite E. apply lost_ratio.
    unfold n, ntrapz. destruct (nsum_has_inf _ (terms_tail d pre x s _ (betadist_in betaln x a b s lnB (Fin 0) HB Hx) E (proj2 Hx))) as [-> | ->]; cbn; auto. left. unfold sinf. rewrite Rltb_t by lra. reflexivity.
Qed.
Lemma curve_left betaln a b s lnB r q : betaln (Fin a) (Fin b) = Fin lnB -> 0 < s -> a <= 1 ->
  nth 0 (spin_curve (map (fun x => betadist betaln x (Fin a) (Fin b) (Fin s) (Fin 0)) (map Fin (rlinspace 0 s 800))) (map Fin (rlinspace 0 s 800)) (Fin r) (Fin q)) (Fin 0) = NaN.
Proof.
  intros HB HA Ha. destruct (lin_head 0 s HA) as (x1 & xs & -> & H1). cbn [map]. rewrite (betadist_in _ x1 _ _ _ _ _ HB) by auto.
  unfold spin_curve. cbv zeta. set (y1 := _ / _). set (ys := map _ (map Fin xs)). cbn [map nth]. destruct (Req_dec a 1) as [->|N].
  - rewrite (betadist_nan_left _ _ _ _ _ HB HA). rewrite nmul_fin. reflexivity.
  - rewrite (betadist_inf_left _ _ _ _ _ _ HB HA) by lra. rewrite nmul_fin. apply lost_ratio. apply trapz_inf. lra.
Qed.
Lemma curve_middle betaln a b s lnB r q : betaln (Fin a) (Fin b) = Fin lnB -> 0 < s -> 1 < a -> 1 < b ->
  exists g, (forall x, 0 <= x <= s -> betadist betaln (Fin x) (Fin a) (Fin b) (Fin s) (Fin 0) = Fin (g x)) /\
    rate_curve (rlinspace 0 s 800) g (r * q) (spin_curve (map (fun x => betadist betaln x (Fin a) (Fin b) (Fin s) (Fin 0)) (map Fin (rlinspace 0 s 800))) (map Fin (rlinspace 0 s 800)) (Fin r) (Fin q)).
Proof.
  intros HB HA Ha Hb. exists (beta_f lnB a b s). assert (G : forall x, 0 <= x <= s -> betadist betaln (Fin x) (Fin a) (Fin b) (Fin s) (Fin 0) = Fin (beta_f lnB a b s x)) by (intros; apply beta_f_in; auto). split; auto.
  set (aa := rlinspace 0 s 800). replace (map _ (map Fin aa)) with (map (fun x => Fin (beta_f lnB a b s x)) aa).
  - apply spin_curve_ok. apply grid_pos; [apply two_eight|auto| |].
    + intros z HZ. destruct (Req_dec z 0) as [->|N0]; [unfold beta_f; rewrite (Rltb_f 0 0) by lra; cbn; lra|]. destruct (Req_dec z s) as [->|N1]; [unfold beta_f; rewrite (Rltb_f s s) by lra; rewrite andb_false_r; cbn; lra|]. left. apply beta_f_pos. lra.
    + destruct (lin_inner 0 s HA) as (x & I & B). exists x. split; auto. apply beta_f_pos; auto.
  - rewrite map_map. apply map_ext_in. intros x Hx. symmetry. apply G. eapply rlinspace_range; [|exact Hx]. lra.
Qed.

Lemma beta_each betaln amax ds rate frac : one_per_draw (length ds) rate -> one_per_draw (length ds) frac -> 0 < amax ->
  (forall a b, In (a, b) ds -> exists lnB, betaln (Fin a) (Fin b) = Fin lnB) ->
  let aa := rlinspace 0 amax 800 in
  exists cs, calculate_beta_spin_mag betaln (Fin amax) (map (fun d => (Fin (fst d), Fin (snd d))) ds) (given rate) (given frac) = Ok (cs, map Fin aa) /\ length cs = length ds /\
    forall i a b, nth_error ds i = Some (a, b) ->
      (1 < a -> 1 < b -> exists g, (forall x, 0 <= x <= amax -> betadist betaln (Fin x) (Fin a) (Fin b) (Fin amax) (Fin 0) = Fin (g x)) /\ rate_curve aa g (total_rate rate frac i) (nth i cs [])) /\
      (a <= 1 -> nth 0 (nth i cs []) (Fin 0) = NaN) /\ (b <= 1 -> last (nth i cs []) (Fin 0) = NaN).
Proof.
  intros HR HF HA HD aa. unfold calculate_beta_spin_mag. cbv zeta. unfold PPD_POINTS. rewrite (nlinspace_fin 0 amax 800) by apply two_eight. fold aa.
  set (h := fun d : R * R => _). set (f := fun d r q => _).
  destruct (all_ok h f (fun d t o => (1 < fst d -> 1 < snd d -> exists g, (forall x, 0 <= x <= amax -> betadist betaln (Fin x) (Fin (fst d)) (Fin (snd d)) (Fin amax) (Fin 0) = Fin (g x)) /\ rate_curve aa g t o) /\
      (fst d <= 1 -> nth 0 o (Fin 0) = NaN) /\ (snd d <= 1 -> last o (Fin 0) = NaN)) ds rate frac HR HF) as (os & E & L & K).
  - intros [a b] r q Hd. destruct (HD _ _ Hd) as (lnB & HB). eexists. split; [reflexivity|]. unfold h. cbn [fst snd]. split; [|split].
    + intros Ha Hb. apply (curve_middle betaln a b amax lnB r q); auto.
    + intros Ha. apply (curve_left betaln a b amax lnB r q); auto.
    + intros Hb. apply (curve_right betaln a b amax lnB r q); auto.
  - rewrite E. cbn [rbind]. exists os. split; auto. split; auto. intros i a b Hi. destruct (K i _ Hi) as (o & Eo & Po). rewrite (nth_some _ _ _ _ Eo). exact Po.
Qed.
Lemma beta_good betaln amax ds rate frac : one_per_draw (length ds) rate -> one_per_draw (length ds) frac -> 0 < amax ->
  (forall a b, In (a, b) ds -> exists lnB, betaln (Fin a) (Fin b) = Fin lnB) ->
  let aa := rlinspace 0 amax 800 in
  exists cs, calculate_beta_spin_mag betaln (Fin amax) (map (fun d => (Fin (fst d), Fin (snd d))) ds) (given rate) (given frac) = Ok (cs, map Fin aa) /\ length cs = length ds /\
    forall i a b, nth_error ds i = Some (a, b) -> 1 < a -> 1 < b ->
      exists g, (forall x, 0 <= x <= amax -> betadist betaln (Fin x) (Fin a) (Fin b) (Fin amax) (Fin 0) = Fin (g x)) /\ rate_curve aa g (total_rate rate frac i) (nth i cs []).
Proof.
  intros HR HF HA HD aa. destruct (beta_each betaln amax ds rate frac HR HF HA HD) as (cs & E & L & K). exists cs. split; [exact E|]. split; auto. intros i a b Hi. apply (K i a b Hi).
Qed.
Lemma beta_bad betaln amax ds rate frac : one_per_draw (length ds) rate -> one_per_draw (length ds) frac -> 0 < amax ->
  (forall a b, In (a, b) ds -> exists lnB, betaln (Fin a) (Fin b) = Fin lnB) ->
  exists cs, calculate_beta_spin_mag betaln (Fin amax) (map (fun d => (Fin (fst d), Fin (snd d))) ds) (given rate) (given frac) = Ok (cs, map Fin (rlinspace 0 amax 800)) /\ length cs = length ds /\
    forall i a b, nth_error ds i = Some (a, b) -> (a <= 1 -> nth 0 (nth i cs []) (Fin 0) = NaN) /\ (b <= 1 -> last (nth i cs []) (Fin 0) = NaN).
Proof.
  intros HR HF HA HD. destruct (beta_each betaln amax ds rate frac HR HF HA HD) as (cs & E & L & K). exists cs. split; [exact E|]. split; auto. intros i a b Hi. apply (K i a b Hi).
Qed.
