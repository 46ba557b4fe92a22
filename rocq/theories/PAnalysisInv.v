(** Permutation invariance, cuts, flags, rate, categorical branch. *)
From Coq Require Import Permutation.
From Verif Require Export PAnalysisCuts Spec.
Open Scope R_scope.
Open Scope string_scope.
Open Scope list_scope.

(** ** permutations *)
Lemma nmax_fin a b : nmax (Fin a) (Fin b) = Fin (Rmax a b).
Proof. unfold nmax, nle, Rmax, Rleb. destruct (Rle_dec a b); reflexivity. Qed.
Lemma nmin_fin a b : nmin (Fin a) (Fin b) = Fin (Rmin a b).
Proof. unfold nmin, nle, Rmin, Rleb. destruct (Rle_dec a b); reflexivity. Qed.
Lemma nmax_swap a b c : nmax (nmax a b) c = nmax (nmax a c) b.
Proof.
  assert (Nl : forall x, nmax NInf x = x) by (intros []; reflexivity). assert (Nr : forall x, nmax x NInf = x) by (intros []; reflexivity).
  destruct a as [a| | |], b as [b| | |], c as [c| | |]; rewrite ?Nl, ?Nr, ?nmax_fin; try reflexivity.
  - rewrite <- !Rmax_assoc, (Rmax_comm b c). reflexivity.
  - rewrite Rmax_comm. reflexivity.
Qed.
Lemma nmin_swap a b c : nmin (nmin a b) c = nmin (nmin a c) b.
Proof.
  assert (Nl : forall x, nmin PInf x = x) by (intros []; reflexivity). assert (Nr : forall x, nmin x PInf = x) by (intros []; reflexivity).
  destruct a as [a| | |], b as [b| | |], c as [c| | |]; rewrite ?Nl, ?Nr, ?nmin_fin; try reflexivity.
  - rewrite <- !Rmin_assoc, (Rmin_comm b c). reflexivity.
  - rewrite Rmin_comm. reflexivity.
Qed.
Lemma fold_perm {A} (op : A -> A -> A) : (forall a b c, op (op a b) c = op (op a c) b) ->
  forall l m, Permutation l m -> forall x, fold_left op l x = fold_left op m x.
Proof.
  intros H l m P. induction P; intros z; cbn; auto.
  - rewrite H. reflexivity.
  - rewrite IHP1. apply IHP2.
Qed.
Lemma lse_perm l m : Permutation l m -> nlogsumexp l = nlogsumexp m.
Proof.
  intros P. unfold nlogsumexp, lse_shift, nmaxl. rewrite (fold_perm nmax nmax_swap l m P). f_equal. f_equal.
  apply nsum_perm, Permutation_map, P.
Qed.
Lemma event_stats_perm log n l m : Permutation l m -> event_stats log n l = event_stats log n m.
Proof.
  intros P. unfold event_stats.
  rewrite (lse_perm l m P), (lse_perm _ _ (Permutation_map (fun x => nmul (Fin 2) x) P)), (nsum_perm l m P), (nsum_perm _ _ (Permutation_map (fun x => npowi x 2) P)).
  reflexivity.
Qed.
Lemma de_perm log l m c : Permutation l m -> detection_efficiency log l c = detection_efficiency log m c.
Proof.
  intros P. unfold detection_efficiency.
  rewrite (lse_perm l m P), (nsum_perm l m P), (nsum_perm _ _ (Permutation_map (fun x => npowi (nexp x) 2) P)), (nsum_perm _ _ (Permutation_map (fun x => npowi x 2) P)).
  reflexivity.
Qed.
Lemma nminl_PInf x l : nminl x l = nminl PInf (x :: l).
Proof. unfold nminl. cbn [fold_left]. f_equal. destruct x; reflexivity. Qed.
Lemma minneff_perm E E' : Permutation E E' -> minneff E = minneff E'.
Proof.
  intros P. unfold minneff. pose proof (Permutation_map nan_to_num P) as Q. destruct (map nan_to_num E) as [|x l], (map nan_to_num E') as [|y m]; auto.
  - apply Permutation_nil in Q. discriminate.
  - symmetry in Q. apply Permutation_nil in Q. discriminate.
  - rewrite (nminl_PInf x l), (nminl_PInf y m). unfold nminl. rewrite (fold_perm nmin nmin_swap _ _ Q). reflexivity.
Qed.
Lemma logl2_perm a B B' E E' V V' lm le v : Permutation B B' -> Permutation E E' -> Permutation V V' ->
  logl2 a B E V lm le v = logl2 a B' E' V' lm le v.
Proof.
  intros HB HE HV. unfold logl2, totvar, logl1, logl0. rewrite (nsum_perm _ _ HB), (nsum_perm _ _ HV), (minneff_perm _ _ HE). reflexivity.
Qed.


Lemma bf_perm log n rows rows' : same_weights rows rows' ->
  match per_event_log_bayes_factors log (Arr2 n rows), per_event_log_bayes_factors log (Arr2 n rows') with
  | Ok (B, E, V), Ok (B', E', V') => Permutation B B' /\ Permutation E E' /\ Permutation V V'
  | Err e, Err e' => e = e'
  | _, _ => False
  end.
Proof.
  intros (mid & P & F). unfold per_event_log_bayes_factors. cbn [a_cols a_rows]. destruct n as [|n]; auto.
  assert (E : map (event_stats log (S n)) rows' = map (event_stats log (S n)) mid).
  { clear P. induction F; cbn; auto. rewrite IHF. f_equal. apply event_stats_perm. now symmetry. }
  rewrite E. repeat split; repeat apply Permutation_map; auto.
Qed.

Lemma hl_perm a d n rows rows' inj inj' : categorical a = false -> same_weights rows rows' -> Permutation inj inj' ->
  factors (fst (hierarchical_likelihood a d (PEOne (Arr2 n rows)) inj)) =
  factors (fst (hierarchical_likelihood a d (PEOne (Arr2 n rows')) inj')).
Proof.
  intros HC HW HI. rewrite !hl_shape. destruct (bad_flags a); [reflexivity|]. unfold event_part. rewrite HC. unfold lift.
  pose proof (bf_perm (logw a) n rows rows' HW) as G.
  destruct (per_event_log_bayes_factors (logw a) (Arr2 n rows)) as [[[B E] V]|e], (per_event_log_bayes_factors (logw a) (Arr2 n rows')) as [[[B' E'] V']|e'];
    [|destruct G|destruct G|reflexivity].
  rewrite (de_perm _ inj inj' _ HI). destruct (detection_efficiency _ _ _) as [[[lm le] v]|e]; [|reflexivity].
  destruct (reconstruct_rate a && _)%bool. { reflexivity. }
  destruct G as (GB & GE & GV).
  assert (N : match E with [] => true | _ => false end = match E' with [] => true | _ => false end).
  { destruct E, E'; auto. apply Permutation_nil in GE; discriminate. symmetry in GE. apply Permutation_nil in GE; discriminate. }
  rewrite N. destruct (min_neff_cut a && _)%bool.
  { cbn [fst]. rewrite !factors_app, !pre_nofac. reflexivity. }
  cbn [fst]. rewrite !factors_app, !pre_nofac, !post_fac. rewrite !nofac_when by apply ppc_nofac. cbn [app].
  rewrite (logl2_perm a B B' E E' V V' lm le v); auto.
Qed.

(** ** C61 *)
Lemma nsum_PInf l : nsum l = PInf -> In PInf l.
Proof.
  induction l as [|x l IH]; cbn; [discriminate|]. intros H. destruct x; cbn in H; auto.
  - destruct (nsum l); try discriminate. right; auto.
  - destruct (nsum l); discriminate.
Qed.
Definition posish (x : num) : Prop := match x with NInf => False | _ => True end.
Lemma nsum_posish l : Forall posish l -> posish (nsum l).
Proof. induction 1; cbn; auto. destruct x, (nsum l); cbn in *; auto. Qed.
Lemma nsum_has_PInf l : Forall posish l -> In PInf l -> nsum l = PInf \/ nsum l = NaN.
Proof.
  induction 1 as [|x l Hx Hl IH]; cbn; [tauto|]. intros [->|HI].
  - pose proof (nsum_posish l Hl). destruct (nsum l); cbn in *; auto; tauto.
  - destruct (IH HI) as [-> | ->]; destruct x; cbn in *; auto; tauto.
Qed.
Lemma lse_PInf l : nlogsumexp l = PInf -> In PInf l.
Proof.
  unfold nlogsumexp. destruct (lse_shift_fin l) as [m ->]. intros H.
  assert (E : nsum (map (fun a => nexp (nsub a (Fin m))) l) = PInf).
  { destruct (nsum _) as [r| | |]; cbn in H; auto; try discriminate. unfold Rltb, Reqb in H. destruct (Rlt_dec 0 r), (Req_EM_T r 0); discriminate. }
  apply nsum_PInf in E. apply in_map_iff in E as (x & E & Hx). destruct x; cbn in E; try discriminate. auto.
Qed.
Lemma lse_has_PInf l : In PInf l -> nlogsumexp l = PInf \/ nlogsumexp l = NaN.
Proof.
  intros H. unfold nlogsumexp. destruct (lse_shift_fin l) as [m ->].
  destruct (nsum_has_PInf (map (fun a => nexp (nsub a (Fin m))) l)) as [-> | ->]; cbn; auto.
  - apply Forall_forall. intros x Hx. apply in_map_iff in Hx as (y & <- & _). destruct y; cbn; auto.
  - apply in_map_iff. exists PInf. auto.
Qed.
Lemma sq_posish x : posish (npowi x 2).
Proof. destruct x; cbn; auto. Qed.

Lemma event_stats_inf log n row : (0 < n)%nat -> fst (fst (event_stats log n row)) = PInf ->
  snd (fst (event_stats log n row)) = NaN /\ snd (event_stats log n row) = NaN.
Proof.
  intros Hn H. assert (Hn' : 0 < INR n) by (apply lt_0_INR; lia). unfold event_stats in *. destruct log.
  - cbn [fst snd] in *. rewrite nlog_fin in H by auto.
    assert (E : nlogsumexp row = PInf) by (destruct (nlogsumexp row); cbn in H; auto; discriminate).
    assert (G : nlogsumexp (map (fun x => nmul (Fin 2) x) row) = PInf \/ nlogsumexp (map (fun x => nmul (Fin 2) x) row) = NaN).
    { apply lse_has_PInf. apply in_map_iff. exists PInf. split; [cbn; apply sinf_pos; lra|]. apply lse_PInf; auto. }
    rewrite E. replace (nmul (Fin 2) PInf) with PInf by (cbn; rewrite sinf_pos by lra; reflexivity). destruct G as [-> | ->]; cbn; auto.
  - cbn [fst snd] in *.
    assert (E : nsum row = PInf).
    { destruct (nsum row) as [r| | |]; auto; cbn in H.
      - rewrite Reqb_f in H by lra. cbn in H. unfold Rltb, Reqb in H. destruct (Rlt_dec 0 (r / INR n)), (Req_EM_T (r / INR n) 0); discriminate.
      - rewrite Rltb_f in H by lra. discriminate.
      }
    assert (G : nsum (map (fun x => npowi x 2) row) = PInf \/ nsum (map (fun x => npowi x 2) row) = NaN).
    { apply nsum_has_PInf.
      - apply Forall_forall. intros x Hx. apply in_map_iff in Hx as (y & <- & _). apply sq_posish.
      - apply in_map_iff. exists PInf. split; auto. apply nsum_PInf; auto. }
    rewrite E. destruct G as [-> | ->]; cbn; auto.
Qed.

Lemma per_event_inf log w B E V : per_event_log_bayes_factors log w = Ok (B, E, V) -> In PInf B -> In NaN E /\ In NaN V.
Proof.
  unfold per_event_log_bayes_factors. destruct (a_cols w) as [|n] eqn:C; [discriminate|]. intros H HI. injection H as <- <- <-.
  apply in_map_iff in HI as (t & Ht & HI). apply in_map_iff in HI as (row & <- & HI).
  apply event_stats_inf in Ht; [|lia]. destruct Ht as [H1 H2]. split; apply in_map_iff; eexists; split; eauto; apply in_map; auto.
Qed.
Lemma event_part_inf a d pe s0 B E V : event_part a d pe = (s0, Ok (B, E, V)) -> In PInf B -> In NaN E /\ In NaN V.
Proof.
  unfold event_part. destruct (categorical a); destruct pe as [w|[|w0 [|w1 ws]]]; cbn; intros H; try discriminate;
    injection H as _ H; eapply per_event_inf; eauto.
Qed.

Lemma nminl_le_in x l y : In y (x :: l) -> Forall (fun z => exists r, z = Fin r) (x :: l) -> exists r, nminl x l = Fin r /\ nle (Fin r) y = true.
Proof.
  intros HI HF. assert (exists rs r0, x = Fin r0 /\ l = map Fin rs) as (rs & r0 & -> & ->).
  { inversion HF; subst. destruct H1 as [r1 ->]. clear - H2. assert (exists rs, l = map Fin rs) as [rs ->]; eauto.
    induction H2 as [|z l [r2 ->] _ [rs ->]]; [exists []|exists (r2 :: rs)]; auto. }
  rewrite nminl_fin. eexists; split; [reflexivity|]. destruct (fold_Rmin_le r0 rs) as [M1 M2].
  destruct HI as [<-|HI]; cbn; [apply Rleb_t; auto|]. apply in_map_iff in HI as (z & <- & HI). cbn. apply Rleb_t; auto.
Qed.
Lemma nan_to_num_fin x : exists r, nan_to_num x = Fin r.
Proof. destruct x; cbn; eauto. Qed.
Lemma minneff_low E x K : 1 <= K -> In x E -> nlt (Fin K) (nexp x) = false -> nle (minneff E) (Fin K) = true.
Proof.
  intros HK HI HX. unfold minneff.
  assert (HI' : In (nan_to_num x) (map nan_to_num E)) by (apply in_map; auto).
  assert (HF : Forall (fun z => exists r, z = Fin r) (map nan_to_num E)).
  { apply Forall_forall. intros z Hz. apply in_map_iff in Hz as (y & <- & _). apply nan_to_num_fin. }
  destruct (map nan_to_num E) as [|y l]; [cbn in HI'; tauto|].
  destruct (nminl_le_in y l (nan_to_num x) HI' HF) as (r & -> & Hr). cbn [nexp nle]. apply Rleb_t.
  destruct x as [t| | |]; cbn in HX, Hr.
  - apply Rltb_false in HX. apply Rleb_true in Hr. apply Rle_trans with (exp t); auto. now apply exp_le.
  - discriminate.
  - apply Rleb_true in Hr. apply Rle_trans with (exp 0); [|rewrite exp_0; auto]. apply exp_le. pose proof FMAX_pos. lra.
  - apply Rleb_true in Hr. apply Rle_trans with (exp 0); [|rewrite exp_0; auto]. apply exp_le. lra.
Qed.

Lemma totvar_nan a V v : In NaN V -> totvar a V v = NaN.
Proof.
  intros H. unfold totvar. assert (E : nsum V = NaN).
  { induction V; cbn in *; [tauto|]. destruct H as [->|H]; [reflexivity|]. rewrite IHV by auto. destruct a0; reflexivity. }
  rewrite E. destruct (nmul _ _); reflexivity.
Qed.

(** injections *)
Lemma cut_injections a d pe inj sites l le b : run a d pe inj sites l -> (1 <= Nobs a)%nat -> min_neff_cut a = true ->
  In (Site Deterministic "log_nEff_inj" (Scal le)) sites -> In (Site Deterministic "sum_logBFs" (Scal b)) sites ->
  nle (nlog (Fin (4 * INR (Nobs a)))) le = false ->
  l = Fin (- FMAX) \/ exists r, b = Fin r /\ l = Fin (- FMAX + r).
Proof.
  intros HR HK HM H1 H2 HL. assert (HK' : 1 <= INR (Nobs a)) by (apply (le_INR 1); auto).
  destruct (run_recorded _ _ _ _ _ _ HR) as (s0 & B & E & V & lm & le' & v & HE & HD & HF & HN & -> & C1 & C2 & C3 & C4 & C5 & C6 & C7).
  apply called_in in H1, H2. rewrite C1 in H1. rewrite C4 in H2. destruct H1 as [H1|[]]. destruct H2 as [H2|[]]. injection H1 as <-. injection H2 as <-.
  assert (MV : max_variance_cut a = false).
  { unfold bad_flags in HF. rewrite HM, orb_true_r, andb_true_r in HF. auto. }
  unfold logl2. rewrite MV. unfold logl1. rewrite HM. unfold logl0, lde. rewrite HM.
  unfold nge. rewrite nmul_fin, HL. cbn [nwhere sel_of].
  destruct (nle (minneff E) (Fin (INR (Nobs a)))) eqn:Q; cbn [nwhere]; [left; reflexivity|].
  destruct (nsum B) as [r| | |] eqn:S; cbn; [right; exists r; auto| |left; reflexivity|left; reflexivity].
  exfalso. apply nsum_PInf in S. destruct (event_part_inf _ _ _ _ _ _ _ HE S) as [S1 _].
  rewrite (minneff_low E NaN) in Q; auto; discriminate.
Qed.
(** events *)
Lemma cut_events a d pe inj sites l E x : run a d pe inj sites l -> (1 <= Nobs a)%nat -> min_neff_cut a = true ->
  In (Site Deterministic "log_nEffs" (Vec E)) sites -> In x E -> nlt (Fin (INR (Nobs a))) (nexp x) = false ->
  l = Fin (- FMAX).
Proof.
  intros HR HK HM H1 H2 HL. assert (HK' : 1 <= INR (Nobs a)) by (apply (le_INR 1); auto).
  destruct (run_recorded _ _ _ _ _ _ HR) as (s0 & B & E' & V & lm & le' & v & HE & HD & HF & HN & -> & C1 & C2 & C3 & C4 & C5 & C6 & C7).
  apply called_in in H1. rewrite C2 in H1. destruct H1 as [H1|[]]. injection H1 as <-.
  assert (MV : max_variance_cut a = false).
  { unfold bad_flags in HF. rewrite HM, orb_true_r, andb_true_r in HF. auto. }
  unfold logl2. rewrite MV. unfold logl1. rewrite HM. rewrite (minneff_low E' x) by auto. reflexivity.
Qed.
(** variance *)
Lemma cut_variance a d pe inj sites l v : run a d pe inj sites l -> max_variance_cut a = true ->
  In (Site Deterministic "variance_log_likelihood" (Scal v)) sites -> nle v (Fin 1) = false -> l = Fin (- FMAX).
Proof.
  intros HR HM H1 HL.
  destruct (run_recorded _ _ _ _ _ _ HR) as (s0 & B & E' & V & lm & le' & v' & HE & HD & HF & HN & -> & C1 & C2 & C3 & C4 & C5 & C6 & C7).
  apply called_in in H1. rewrite C7 in H1. destruct H1 as [H1|[]]. injection H1 as <-.
  unfold logl2. rewrite HM, HL. reflexivity.
Qed.
(** otherwise untouched *)

Lemma minneff_high E K : 1 <= K -> K < exp FMAX -> E <> [] -> (forall x, In x E -> nlt (Fin K) (nexp x) = true) -> nle (minneff E) (Fin K) = false.
Proof.
  intros HK HB HE HX. unfold minneff.
  assert (HF : exists rs, map nan_to_num E = map Fin rs /\ forall r, In r rs -> K < exp r).
  { clear HE. induction E as [|x E IH]; [exists []; cbn; split; auto; tauto|]. destruct IH as (rs & E1 & E2); [intros; apply HX; cbn; auto|].
    specialize (HX x (or_introl eq_refl)). destruct x as [t| | |]; cbn in HX; try discriminate.
    - exists (t :: rs). cbn. rewrite E1. split; auto. intros r [<-|Hr]; auto. now apply Rltb_true.
    - exists (FMAX :: rs). cbn [map]. rewrite E1. split; auto. intros r [<-|Hr]; auto.
    - apply Rltb_true in HX. lra. }
  destruct HF as (rs & EM & HR). destruct rs as [|r0 rs].
  { exfalso. destruct E; [congruence|]. cbn in EM. discriminate EM. }
  rewrite EM.
  cbn [map]. rewrite nminl_fin. cbn [nexp nle]. apply Rleb_f. rewrite <- (exp_ln K) at 1 by lra. apply exp_increasing.
  assert (G : forall r, In r (r0 :: rs) -> ln K < r).
  { intros r Hr. apply exp_lt_inv. rewrite exp_ln by lra. auto. }
  apply fold_Rmin_gt; [apply G; cbn; auto|intros y Hy; apply G; cbn; auto].
Qed.

Lemma cut_passed a d pe inj sites l E le v : run a d pe inj sites l -> (1 <= Nobs a)%nat -> INR (Nobs a) < exp FMAX ->
  In (Site Deterministic "log_nEffs" (Vec E)) sites -> In (Site Deterministic "log_nEff_inj" (Scal le)) sites ->
  In (Site Deterministic "variance_log_likelihood" (Scal v)) sites ->
  (min_neff_cut a = true -> nle (nlog (Fin (4 * INR (Nobs a)))) le = true /\ forall x, In x E -> nlt (Fin (INR (Nobs a))) (nexp x) = true) ->
  (max_variance_cut a = true -> nle v (Fin 1) = true) ->
  exists sites', run (without_cuts a) d pe inj sites' l.
Proof.
  intros HR HK HBIG H1 H2 H3 HM HV. assert (HK' : 1 <= INR (Nobs a)) by (apply (le_INR 1); auto).
  pose proof HR as HR'. destruct HR' as [HSITES HIN].
  destruct (run_recorded _ _ _ _ _ _ HR) as (s0 & B & E' & V & lm & le' & v' & HE & HD & HF & HN & EL & C1 & C2 & C3 & C4 & C5 & C6 & C7).
  apply called_in in H1, H2, H3. rewrite C2 in H1. rewrite C1 in H2. rewrite C7 in H3.
  destruct H1 as [H1|[]]. destruct H2 as [H2|[]]. destruct H3 as [H3|[]]. injection H1 as <-. injection H2 as <-. injection H3 as <-.
  eexists. split; [reflexivity|].
  assert (EV : event_part (without_cuts a) d pe = event_part a d pe) by reflexivity.
  rewrite hl_shape, EV, HE. cbn [bad_flags without_cuts max_variance_cut andb].
  change (detection_efficiency (logw (without_cuts a)) inj (total_inj (without_cuts a))) with (detection_efficiency (logw a) inj (total_inj a)).
  rewrite HD. cbn [without_cuts reconstruct_rate surveyed_hypervolume min_neff_cut andb].
  assert (RR : (reconstruct_rate a && match surveyed_hypervolume a with None => true | _ => false end)%bool = false).
  { assert (HIN2 : In (Site Factor "log_likelihood" (Scal l)) (factors (fst (hierarchical_likelihood a d pe inj)))).
    { apply filter_In. split; [rewrite HSITES; exact HIN|reflexivity]. }
    clear HIN. rename HIN2 into HIN. destruct (_ && _)%bool eqn:Q; auto. exfalso.
    rewrite hl_shape, HF, HE, HD, Q in HIN. cbn [fst] in HIN. rewrite factors_app in HIN.
    pose proof (event_part_nofac a d pe) as N0. rewrite HE in N0. cbn [fst] in N0. rewrite N0 in HIN. cbn in HIN. tauto. }
  rewrite RR. cbn [fst]. rewrite !in_app_iff. right. right. left. unfold post_sites. cbn [without_cuts min_neff_cut max_variance_cut app In].
  right. left. apply (f_equal (fun x => Site Factor "log_likelihood" (Scal x))). rewrite EL.
  unfold logl2. cbn [without_cuts max_variance_cut]. unfold logl1. cbn [without_cuts min_neff_cut].
  assert (L0 : logl0 (without_cuts a) B lm le' = logl0 a B lm le').
  { unfold logl0, lde. cbn [without_cuts min_neff_cut Nobs marginalize_selection]. destruct (min_neff_cut a) eqn:MM; auto.
    destruct (HM eq_refl) as [G _]. unfold nge. rewrite nmul_fin, G. reflexivity. }
  rewrite L0. destruct (min_neff_cut a) eqn:MM.
  - destruct (HM eq_refl) as [_ G]. rewrite (minneff_high E') by auto. cbn [nwhere].
    destruct (max_variance_cut a) eqn:MV; auto. rewrite HV by auto. reflexivity.
  - destruct (max_variance_cut a) eqn:MV; auto. rewrite HV by auto. reflexivity.
Qed.

(** ** C62 *)
Lemma hl_flags a d pe inj :
  hierarchical_likelihood a d pe inj = ([], Err ValueError) <->
  max_variance_cut a = true /\ (marginalize_selection a = true \/ min_neff_cut a = true).
Proof.
  rewrite hl_shape. split.
  - destruct (bad_flags a) eqn:F.
    { intros _. unfold bad_flags in F. apply andb_prop in F as [F1 F2]. apply orb_prop in F2. auto. }
    assert (NV : forall w e, per_event_log_bayes_factors (logw a) w = Err e -> e = ZeroDivision).
    { intros w e. unfold per_event_log_bayes_factors. destruct (a_cols w); intros H; [now injection H|discriminate H]. }
    destruct (event_part a d pe) as [s0 [[[B E] V]|e]] eqn:HE.
    + destruct (detection_efficiency _ _ _) as [[[lm le] v]|e] eqn:HD.
      * destruct (_ && _)%bool; [intros H; injection H as _ H; discriminate|].
        destruct (_ && _)%bool.
        { intros H. injection H as H. apply app_eq_nil in H as [_ H]. discriminate. }
        intros H. injection H as H _. apply app_eq_nil in H as [_ H]. discriminate H.
      * intros H. injection H as H ->. unfold detection_efficiency, count_num in HD. destruct (total_inj a), (logw a); [destruct (_ && _)%bool|destruct (_ && _)%bool| |]; cbn [rbind] in HD; discriminate HD.
    + intros H. injection H as -> ->. unfold event_part in HE.
      destruct (categorical a); destruct pe as [w|[|w0 [|w1 ws]]]; cbn in HE; try discriminate; injection HE as HE; try (apply NV in HE; discriminate).
  - intros [H1 H2]. unfold bad_flags. rewrite H1. destruct H2 as [-> | ->]; rewrite ?orb_true_r; reflexivity.
Qed.

(** ** C63 *)
Lemma hl_rate a d pe inj sites r vt u t mu lm le v :
  hierarchical_likelihood a d pe inj = (sites, Ok r) -> reconstruct_rate a = true ->
  surveyed_hypervolume a = Some (Fin vt) -> Tobs a = Fin t -> d_rate d = Fin u -> vt * t <> 0 -> 0 < mu ->
  detection_efficiency (logw a) inj (total_inj a) = Ok (lm, le, v) -> nexp lm = Fin mu ->
  exists rate, r = Some (Fin rate) /\
    In (Site Deterministic "rate" (Scal (Fin rate))) sites /\
    In (Site Deterministic "detection_efficiency" (Scal (Fin mu))) sites /\
    In (Site Deterministic "surveyed_hypervolume" (Scal (Fin (vt / 10 ^ 9 * t)))) sites /\
    In (Site Sample "unscaled_rate" (Scal (Fin u))) sites /\
    rate * mu * (vt / 10 ^ 9 * t) = u.
Proof.
  intros H HR HS HT HU HV HP HD HM. rewrite hl_shape in H. destruct (bad_flags a); [discriminate|].
  destruct (event_part a d pe) as [s0 [[[B E] V]|e]]; [|discriminate]. rewrite HD, HR, HS in H. cbn [andb] in H.
  destruct (min_neff_cut a && _)%bool; [discriminate|].
  assert (P9 : 10 ^ 9 <> 0) by (apply pow_nonzero; lra).
  assert (ET : total_vt a (Fin vt) = Fin (vt / 10 ^ 9 * t)) by (unfold total_vt; rewrite HT, ndiv_fin by auto; reflexivity).
  assert (NZ : vt / 10 ^ 9 * t <> 0).
  { intros Z. apply HV. unfold Rdiv in Z. replace (vt * / 10 ^ 9 * t) with ((vt * t) * / 10 ^ 9) in Z by ring.
    apply Rmult_integral in Z as [Z|Z]; auto. exfalso. revert Z. apply Rinv_neq_0_compat; auto. }
  assert (ER : the_rate a d lm (Fin vt) = Fin (u / mu / (vt / 10 ^ 9 * t))).
  { unfold the_rate. rewrite HU, HM, ET, !ndiv_fin by (auto; lra). reflexivity. }
  exists (u / mu / (vt / 10 ^ 9 * t)). destruct (snd _); [|discriminate]. injection H as <- <-.
  unfold rate_val. rewrite HR, HS, ER. split; auto.
  unfold pre_sites, six, rate_sites. rewrite HR, HS, ER, ET, HU, HM.
  split; [|split; [|split; [|split]]]; try (apply in_or_app; right; cbn [In app]; repeat (first [left; reflexivity | right]); fail).
  field. repeat split; auto; try lra; intros Z; apply HV; rewrite Z; ring.
Qed.

(** ** C65 *)
Lemma hl_categorical_2 a d w0 w1 : categorical a = true ->
  length (d_qs d) = length (a_rows w0) -> length (a_rows w1) = length (a_rows w0) -> a_cols w1 = a_cols w0 ->
  Forall (fun q => (q < 2)%nat) (d_qs d) ->
  snd (event_part a d (PEMany [w0; w1])) =
  per_event_log_bayes_factors (logw a)
    (Arr2 (a_cols w0) (map (fun i => nth i (a_rows (nth (nth i (d_qs d) O) [w0; w1] w0)) []) (seq 0 (length (d_qs d))))).
Proof.
  intros HC HL1 HL2 HW HQ. unfold event_part. rewrite HC. unfold mbind, tell, lift. cbn [snd app]. f_equal. unfold mix_weights. f_equal.
  destruct w0 as [c0 r0], w1 as [c1 r1]. cbn [a_rows a_cols] in *. clear - HL1 HL2 HQ.
  revert r0 r1 HL1 HL2. induction HQ as [|q qs Hq HQ IH]; intros [|x r0] [|y r1] H1 H2; cbn in H1, H2; try discriminate; auto.
  cbn [combine map2 length seq map]. f_equal.
  - destruct q as [|[|q]]; auto. lia.
  - rewrite IH by lia. rewrite <- seq_shift, map_map. apply map_ext. intros i. cbn [nth].
    destruct (nth i qs 0%nat) as [|[|k]]; cbn; auto. destruct k; reflexivity.
Qed.
