(** Facts about the importance-sampling sums of analysis.py. *)
From Coq Require Import Permutation.
From Verif Require Export MAnalysis SpecAnalysis NumFacts ArrFacts Calc Spec.
Open Scope R_scope.


Lemma lse_shift_fin l : exists m, lse_shift l = Fin m.
Proof. unfold lse_shift. destruct (nmaxl NInf l); cbn; eauto. Qed.

Lemma nexp_nlog_shift w m : 0 <= w -> nexp (nsub (nlog (Fin w)) (Fin m)) = Fin (w * exp (- m)).
Proof.
  intros H. destruct (Req_EM_T w 0) as [->|N].
  - rewrite nlog_zero. cbn. f_equal. ring.
  - rewrite nlog_fin by lra. cbn. f_equal. unfold Rminus. rewrite exp_plus, exp_ln by lra. reflexivity.
Qed.


Lemma nonneg_sum ws : nonneg_list ws -> 0 <= Rlsum ws.
Proof. intros H. apply Rlsum_nonneg. apply Forall_forall. auto. Qed.

Lemma logsumexp_logs ws : nonneg_list ws -> nlogsumexp (map (fun w => nlog (Fin w)) ws) = nlog (Fin (Rlsum ws)).
Proof.
  intros H. unfold nlogsumexp. destruct (lse_shift_fin (map (fun w => nlog (Fin w)) ws)) as [m E]. rewrite E. clear E.
  rewrite map_map.
  assert (G : map (fun w => nexp (nsub (nlog (Fin w)) (Fin m))) ws = map Fin (map (fun w => exp (- m) * w) ws)).
  { rewrite map_map. apply map_ext_in. intros w Hw. rewrite nexp_nlog_shift. f_equal; ring. unfold nonneg_list in H. rewrite Forall_forall in H. auto. }
  rewrite G, nsum_fin, Rlsum_scal. pose proof (nonneg_sum ws H) as P. pose proof (exp_pos (- m)) as Q.
  destruct (Req_EM_T (Rlsum ws) 0) as [Z|Z].
  - rewrite Z, Rmult_0_r, nlog_zero. reflexivity.
  - rewrite !nlog_fin by (try apply Rmult_lt_0_compat; lra). cbn. f_equal. rewrite ln_mult by lra. rewrite ln_exp. ring.
Qed.

Lemma two_nlog w : 0 <= w -> nmul (Fin 2) (nlog (Fin w)) = nlog (Fin (w * w)).
Proof.
  intros H. destruct (Req_EM_T w 0) as [->|N].
  - rewrite Rmult_0_l, nlog_zero. cbn. rewrite sinf_pos by lra. reflexivity.
  - rewrite !nlog_fin by nra. rewrite ln_mult by lra. cbn. f_equal. ring.
Qed.

Lemma sumsq_nonneg ws : 0 <= sumsq ws.
Proof. apply Rlsum_nonneg. intros x Hx. apply in_map_iff in Hx as (w & <- & _). nra. Qed.

Lemma nonneg_sq ws : nonneg_list (map (fun w => w * w) ws).
Proof. apply Forall_forall. intros x Hx. apply in_map_iff in Hx as (w & <- & _). nra. Qed.

Lemma sumsq_zero ws : nonneg_list ws -> (sumsq ws = 0 <-> Rlsum ws = 0).
Proof.
  induction 1 as [|w ws Hw Hr IH]; cbn; [tauto|]. unfold sumsq in *. cbn.
  pose proof (sumsq_nonneg ws) as P. unfold sumsq in P. pose proof (nonneg_sum ws Hr) as Q.
  split; intros E.
  - assert (w = 0) by nra. subst. assert (Z : Rlsum (map (fun w => w * w) ws) = 0) by lra. apply IH in Z. lra.
  - assert (w = 0) by lra. subst. assert (Z : Rlsum ws = 0) by lra. apply IH in Z. lra.
Qed.

Lemma sumsq_pos ws : nonneg_list ws -> 0 < Rlsum ws -> 0 < sumsq ws.
Proof.
  intros H P. destruct (Rle_lt_or_eq_dec 0 (sumsq ws) (sumsq_nonneg ws)) as [|E]; auto.
  symmetry in E. apply (proj1 (sumsq_zero ws H)) in E. lra.
Qed.

Lemma nsum_sq ws : nsum (map (fun x => npowi x 2) (map Fin ws)) = Fin (sumsq ws).
Proof.
  rewrite map_map. replace (map (fun x => npowi (Fin x) 2) ws) with (map Fin (map (fun w => w * w) ws)).
  apply nsum_fin. rewrite map_map. apply map_ext. intros; cbn. reflexivity.
Qed.

(** the two modes give the same triple *)
Lemma event_stats_modes n ws : nonneg_list ws -> (0 < n)%nat -> event_stats true n (enc true ws) = event_stats false n (enc false ws).
Proof.
  intros H Hn. unfold event_stats, enc. rewrite logsumexp_logs by auto.
  assert (E : map (fun x => nmul (Fin 2) x) (map (fun w => nlog (Fin w)) ws) = map (fun w => nlog (Fin w)) (map (fun w => w * w) ws)).
  { rewrite !map_map. apply map_ext_in. intros w Hw. apply two_nlog. unfold nonneg_list in H. rewrite Forall_forall in H. auto. }
  rewrite E, logsumexp_logs by apply nonneg_sq. rewrite nsum_fin, nsum_sq. fold (sumsq ws).
  pose proof (nonneg_sum ws H) as P. assert (Hn' : 0 < INR n) by (apply lt_0_INR; lia).
  destruct (Req_EM_T (Rlsum ws) 0) as [Z|Z].
  - pose proof (proj2 (sumsq_zero ws H) Z) as Z2. rewrite Z, Z2. rewrite !nlog_zero, nlog_fin by lra. rewrite (ndiv_fin 0 (INR n)) by lra.
    replace (0 / INR n) with 0 by (unfold Rdiv; ring). rewrite nlog_zero. cbn. rewrite (Reqb_t 0 0) by lra. rewrite !sinf_pos by lra. rewrite Rmult_0_l, sinf_0. reflexivity.
  - assert (Hs : 0 < sumsq ws) by (apply sumsq_pos; auto; lra).
    rewrite npowi_fin. rewrite !ndiv_fin by lra.
    assert (0 < Rlsum ws ^ 2) by nra.
    rewrite !nlog_fin by (try apply Rdiv_lt_0_compat; lra).
    rewrite !ln_div by lra. simpl pow. rewrite Rmult_1_r, ln_mult by lra. rewrite !nmul_fin, !nsub_fin.
    replace (2 * ln (Rlsum ws) - ln (sumsq ws)) with (ln (Rlsum ws) + ln (Rlsum ws) - ln (sumsq ws)) by ring. reflexivity.
Qed.

(** value in linear mode *)
Lemma event_stats_lin n ws : nonneg_list ws -> 0 < Rlsum ws -> (0 < n)%nat ->
  event_stats false n (map Fin ws) = (Fin (ln (Rlsum ws / INR n)), Fin (ln (ess ws)), Fin (/ ess ws - / INR n)).
Proof.
  intros H P Hn. assert (Hn' : 0 < INR n) by (apply lt_0_INR; lia). unfold event_stats, ess.
  pose proof (sumsq_pos ws H P) as Q. rewrite nsum_fin, nsum_sq, npowi_fin.
  assert (0 < Rlsum ws ^ 2) by nra.
  assert (0 < Rlsum ws ^ 2 / sumsq ws) by (apply Rdiv_lt_0_compat; lra).
  rewrite !ndiv_fin by lra. rewrite !nlog_fin by (try apply Rdiv_lt_0_compat; lra). rewrite nexp_fin, exp_ln, ndiv_fin, nsub_fin by lra.
  f_equal. f_equal. unfold Rdiv. ring.
Qed.

Lemma event_stats_val log n ws : nonneg_list ws -> 0 < Rlsum ws -> (0 < n)%nat ->
  event_stats log n (enc log ws) = (Fin (ln (Rlsum ws / INR n)), Fin (ln (ess ws)), Fin (/ ess ws - / INR n)).
Proof. intros. destruct log; [rewrite event_stats_modes; auto|]; apply event_stats_lin; auto. Qed.

(** Cauchy-Schwarz *)
Lemma Rlsum_plus {A} (f g : A -> R) l : Rlsum (map (fun x => f x + g x) l) = Rlsum (map f l) + Rlsum (map g l).
Proof. induction l; cbn; [lra|]. rewrite IHl. ring. Qed.
Lemma Rlsum_scalf {A} k (f : A -> R) l : Rlsum (map (fun x => k * f x) l) = k * Rlsum (map f l).
Proof. induction l; cbn; [lra|]. rewrite IHl. ring. Qed.
Lemma Rlsum_constf {A} k (l : list A) : Rlsum (map (fun _ => k) l) = k * INR (length l).
Proof. induction l; [cbn; ring|]. cbn [map Rlsum length]. rewrite S_INR, IHl. ring. Qed.
Lemma Rlsum_id l : Rlsum (map (fun x : R => x) l) = Rlsum l.
Proof. now rewrite map_id. Qed.

Lemma cs_identity ws : Rlsum (map (fun w => (INR (length ws) * w - Rlsum ws) * (INR (length ws) * w - Rlsum ws)) ws)
  = INR (length ws) * (INR (length ws) * sumsq ws - Rlsum ws ^ 2).
Proof.
  set (n := INR (length ws)). set (S := Rlsum ws).
  rewrite (map_ext _ (fun w => ((n * n) * (w * w) + (- (2 * n * S)) * w) + S * S)) by (intros; ring).
  rewrite Rlsum_plus, Rlsum_plus. rewrite (Rlsum_scalf (n * n) (fun w => w * w)), (Rlsum_scalf (- (2 * n * S)) (fun w => w)), Rlsum_constf, Rlsum_id.
  fold n. fold S. unfold sumsq. ring.
Qed.

Lemma cs_le ws : Rlsum ws ^ 2 <= INR (length ws) * sumsq ws.
Proof.
  destruct ws as [|w ws]; [cbn; unfold sumsq; cbn; lra|].
  pose proof (cs_identity (w :: ws)) as E. set (l := w :: ws) in *.
  assert (0 < INR (length l)) by (apply lt_0_INR; subst l; cbn; lia).
  assert (0 <= Rlsum (map (fun w => (INR (length l) * w - Rlsum l) * (INR (length l) * w - Rlsum l)) l)).
  { apply Rlsum_nonneg. intros x Hx. apply in_map_iff in Hx as (u & <- & _). apply Rle_0_sqr. }
  nra.
Qed.

Lemma Rlsum_zero_nonneg l : nonneg_list l -> Rlsum l = 0 -> forall x, In x l -> x = 0.
Proof.
  induction 1 as [|w ws Hw Hr IH]; intros E x; cbn; [tauto|]. cbn in E. pose proof (nonneg_sum ws Hr).
  intros [<-|Hx]; [lra|]. apply IH; auto; lra.
Qed.

Lemma cs_eq ws : Rlsum ws ^ 2 = INR (length ws) * sumsq ws <-> forall u v, In u ws -> In v ws -> u = v.
Proof.
  split.
  - intros E. assert (Z := cs_identity ws). rewrite <- E, Rminus_diag_eq, Rmult_0_r in Z by reflexivity.
    assert (N : nonneg_list (map (fun w => (INR (length ws) * w - Rlsum ws) * (INR (length ws) * w - Rlsum ws)) ws)).
    { apply Forall_forall. intros x Hx. apply in_map_iff in Hx as (u & <- & _). apply Rle_0_sqr. }
    assert (G : forall u, In u ws -> INR (length ws) * u = Rlsum ws).
    { intros u Hu. assert (F : (INR (length ws) * u - Rlsum ws) * (INR (length ws) * u - Rlsum ws) = 0).
      { apply (Rlsum_zero_nonneg _ N Z). apply in_map_iff. eauto. } nra. }
    intros u v Hu Hv. pose proof (G u Hu). pose proof (G v Hv).
    assert (0 < INR (length ws)) by (apply lt_0_INR; destruct ws; cbn in *; [tauto|lia]). nra.
  - intros H. destruct ws as [|w ws]; [unfold sumsq; cbn; ring|].
    assert (E : forall l, (forall x, In x l -> x = w) -> Rlsum l = INR (length l) * w /\ sumsq l = INR (length l) * (w * w)).
    { induction l as [|a l IH]; intros Hl; [unfold sumsq; cbn; split; ring|].
      destruct IH as [I1 I2]; [intros; apply Hl; cbn; auto|]. rewrite (Hl a) by (cbn; auto). unfold sumsq in *.
      cbn [map Rlsum length]. rewrite S_INR, I1, I2. split; ring. }
    destruct (E (w :: ws)) as [E1 E2]; [intros x Hx; apply H; cbn; auto|]. rewrite E1, E2. ring.
Qed.

Lemma sumsq_le_sq ws : nonneg_list ws -> sumsq ws <= Rlsum ws ^ 2.
Proof.
  induction 1 as [|w ws Hw Hr IH]; unfold sumsq in *; cbn [map Rlsum]; [cbn; lra|]. pose proof (nonneg_sum ws Hr). nra.
Qed.

Lemma ess_range ws : nonneg_list ws -> 0 < Rlsum ws -> 1 <= ess ws <= INR (length ws).
Proof.
  intros H P. pose proof (sumsq_pos ws H P). unfold ess. split.
  - apply Rmult_le_reg_r with (sumsq ws); auto. unfold Rdiv. rewrite Rmult_assoc, Rinv_l by lra. pose proof (sumsq_le_sq ws H). lra.
  - apply Rmult_le_reg_r with (sumsq ws); auto. unfold Rdiv. rewrite Rmult_assoc, Rinv_l by lra. pose proof (cs_le ws). lra.
Qed.

Lemma len_pos ws : 0 < Rlsum ws -> 0 < INR (length ws).
Proof. destruct ws; cbn [Rlsum length]; [lra|]. intros _. apply lt_0_INR. lia. Qed.

Lemma ess_variance ws : nonneg_list ws -> 0 < Rlsum ws ->
  0 <= / ess ws - / INR (length ws) /\ (/ ess ws - / INR (length ws) = 0 <-> forall u v, In u ws -> In v ws -> u = v).
Proof.
  intros H P. pose proof (sumsq_pos ws H P) as Q. pose proof (ess_range ws H P) as [E1 E2]. pose proof (len_pos ws P) as L.
  split.
  - assert (/ INR (length ws) <= / ess ws) by (apply Rinv_le_contravar; lra). lra.
  - rewrite <- cs_eq. unfold ess. rewrite Rinv_div. split; intros E.
    + apply Rminus_diag_uniq in E. apply (f_equal (fun x => x * (Rlsum ws ^ 2 * INR (length ws)))) in E.
      field_simplify in E; [|nra|nra]. nra.
    + rewrite E. field. lra.
Qed.

Lemma sumsq_scal c ws : sumsq (map (fun w => c * w) ws) = c ^ 2 * sumsq ws.
Proof. unfold sumsq. rewrite map_map. rewrite (map_ext _ (fun w => c ^ 2 * (w * w))) by (intros; ring). apply Rlsum_scalf. Qed.
Lemma ess_scal c ws : c <> 0 -> ess (map (fun w => c * w) ws) = ess ws.
Proof.
  intros H. unfold ess. rewrite sumsq_scal, Rlsum_scal. rewrite Rpow_mult_distr.
  assert (c ^ 2 <> 0) by (apply pow_nonzero; auto). unfold Rdiv. rewrite Rinv_mult.
  replace (c ^ 2 * Rlsum ws ^ 2 * (/ c ^ 2 * / sumsq ws)) with ((c ^ 2 * / c ^ 2) * (Rlsum ws ^ 2 * / sumsq ws)) by ring.
  rewrite Rinv_r by auto. ring.
Qed.
Lemma nonneg_scal c ws : 0 <= c -> nonneg_list ws -> nonneg_list (map (fun w => c * w) ws).
Proof. intros Hc H. induction H; cbn; constructor; auto. nra. Qed.

(** *** C55, C56 *)
Definition pos_rows (n : nat) (rows : list (list R)) : Prop :=
  Forall (fun ws => length ws = n /\ nonneg_list ws) rows.

Lemma bf_modes n rows : Forall (fun ws => length ws = n /\ nonneg_list ws) rows ->
  per_event_log_bayes_factors true (Arr2 n (map (enc true) rows)) = per_event_log_bayes_factors false (Arr2 n (map (enc false) rows)).
Proof.
  intros H. unfold per_event_log_bayes_factors. cbn [a_cols a_rows]. destruct n as [|n]; auto.
  assert (E : map (event_stats true (S n)) (map (enc true) rows) = map (event_stats false (S n)) (map (enc false) rows)).
  { rewrite !map_map. apply map_ext_in. intros ws Hw. rewrite Forall_forall in H. apply event_stats_modes; [apply H; auto|lia]. }
  rewrite E. reflexivity.
Qed.

Lemma bf_val log n rows : (0 < n)%nat -> Forall (fun ws => length ws = n /\ nonneg_list ws /\ 0 < Rlsum ws) rows ->
  per_event_log_bayes_factors log (Arr2 n (map (enc log) rows)) =
  Ok (map Fin (map (fun ws => ln (mean ws)) rows), map Fin (map (fun ws => ln (ess ws)) rows), map Fin (map (fun ws => / ess ws - / INR n) rows)).
Proof.
  intros Hn H. unfold per_event_log_bayes_factors. cbn [a_cols a_rows]. destruct n as [|n]; [lia|].
  assert (E : map (event_stats log (S n)) (map (enc log) rows) = map (fun ws => (Fin (ln (mean ws)), Fin (ln (ess ws)), Fin (/ ess ws - / INR (S n)))) rows).
  { rewrite map_map. apply map_ext_in. intros ws Hw. rewrite Forall_forall in H. destruct (H ws Hw) as (L & A & B).
    rewrite event_stats_val by (auto; lia). unfold mean. rewrite L. reflexivity. }
  rewrite E, !map_map. reflexivity.
Qed.

Lemma bf_range log n rows : (0 < n)%nat -> Forall (fun ws => length ws = n /\ nonneg_list ws /\ 0 < Rlsum ws) rows ->
  exists lbf lne var,
    per_event_log_bayes_factors log (Arr2 n (map (enc log) rows)) = Ok (map Fin lbf, map Fin lne, map Fin var) /\
    Forall2 (fun ws b => exp b = mean ws) rows lbf /\
    Forall2 (fun ws x => exp x = ess ws /\ 1 <= exp x <= INR n) rows lne /\
    Forall2 (fun ws v => v = / ess ws - / INR n /\ 0 <= v /\ (v = 0 <-> forall a b, In a ws -> In b ws -> a = b)) rows var.
Proof.
  intros Hn H. rewrite (bf_val log n rows Hn H). do 3 eexists. split; [reflexivity|].
  split; [|split]; induction H as [|ws rows (L & A & B) Hr IH]; cbn [map]; constructor; auto.
  - apply exp_ln. unfold mean. apply Rdiv_lt_0_compat; auto. apply len_pos; auto.
  - pose proof (ess_range ws A B). rewrite exp_ln by lra. rewrite <- L. lra.
  - split; auto. rewrite <- L. apply ess_variance; auto.
Qed.

Lemma bf_scale log n rows c : (0 < n)%nat -> 0 < c -> Forall (fun ws => length ws = n /\ nonneg_list ws /\ 0 < Rlsum ws) rows ->
  exists lbf lne var,
    per_event_log_bayes_factors log (Arr2 n (map (enc log) rows)) = Ok (map Fin lbf, map Fin lne, map Fin var) /\
    per_event_log_bayes_factors log (Arr2 n (map (enc log) (map (map (fun w => c * w)) rows))) =
      Ok (map Fin (map (fun b => ln c + b) lbf), map Fin lne, map Fin var).
Proof.
  intros Hn Hc H. rewrite (bf_val log n rows Hn H). do 3 eexists. split; [reflexivity|].
  rewrite bf_val; auto.
  - assert (E1 : map (fun ws => ln (mean ws)) (map (map (fun w => c * w)) rows) = map (fun b => ln c + b) (map (fun ws => ln (mean ws)) rows)).
    { rewrite !map_map. apply map_ext_in. intros ws Hw. rewrite Forall_forall in H. destruct (H ws Hw) as (L & A & B).
      unfold mean. rewrite map_length, Rlsum_scal. pose proof (len_pos ws B). unfold Rdiv. rewrite Rmult_assoc, ln_mult; auto.
      apply Rdiv_lt_0_compat; auto. }
    assert (E2 : forall g : R -> R, map (fun ws => g (ess ws)) (map (map (fun w => c * w)) rows) = map (fun ws => g (ess ws)) rows).
    { intros g. rewrite !map_map. apply map_ext. intros ws. rewrite ess_scal by lra. reflexivity. }
    rewrite E1, (E2 ln), (E2 (fun e => / e - / INR n)). reflexivity.
  - rewrite Forall_map. eapply Forall_impl; [|exact H]. intros ws (L & A & B). rewrite map_length, Rlsum_scal.
    split; auto. split; [apply nonneg_scal; auto; lra|nra].
Qed.

(** *** C57, C58: detection efficiency *)
Lemma nexp_nlog w : 0 <= w -> nexp (nlog (Fin w)) = Fin w.
Proof.
  intros H. destruct (Req_EM_T w 0) as [->|N]; [rewrite nlog_zero; reflexivity|].
  rewrite nlog_fin, nexp_fin, exp_ln by lra. reflexivity.
Qed.
Lemma nlog_div S N : 0 <= S -> 0 < N -> nsub (nlog (Fin S)) (nlog (Fin N)) = nlog (Fin (S / N)).
Proof.
  intros HS HN. destruct (Req_EM_T S 0) as [->|Z].
  - unfold Rdiv. rewrite Rmult_0_l, nlog_zero, nlog_fin by lra. reflexivity.
  - rewrite !nlog_fin by (try apply Rdiv_lt_0_compat; lra). rewrite ln_div by lra. reflexivity.
Qed.
Lemma count_pos_num c N : count_pos c N -> 0 < N /\ exists q, count_num c = Ok (Fin N, q).
Proof.
  intros [(z & -> & Hz & ->)|[-> H]]; unfold count_num.
  - split; [apply (IZR_lt 0); lia|].
    destruct (Z.leb_spec (- 2 ^ 31) z); [|lia]. destruct (Z.ltb_spec z (2 ^ 31)); [|lia]. cbn [andb]. eauto.
  - eauto.
Qed.
Lemma de_modes ws c N : nonneg_list ws -> count_pos c N ->
  detection_efficiency true (enc true ws) c = detection_efficiency false (enc false ws) c.
Proof.
  intros H HN. destruct (count_pos_num c N HN) as (P & q & E). unfold detection_efficiency. rewrite E. cbn [rbind].
  unfold enc. rewrite logsumexp_logs, nlog_div by (auto; apply nonneg_sum; auto). rewrite nsum_fin.
  assert (G : map (fun x => npowi (nexp x) 2) (map (fun w => nlog (Fin w)) ws) = map (fun x => npowi x 2) (map Fin ws)).
  { rewrite !map_map. apply map_ext_in. intros w Hw. rewrite nexp_nlog; auto. unfold nonneg_list in H. rewrite Forall_forall in H. auto. }
  rewrite G. rewrite nexp_nlog by (apply Rmult_le_pos; [apply nonneg_sum; auto|left; apply Rinv_0_lt_compat; auto]).
  rewrite (ndiv_fin (Rlsum ws) N) by lra. reflexivity.
Qed.
Lemma de_logmu log ws c N : nonneg_list ws -> count_pos c N ->
  exists x y, detection_efficiency log (enc log ws) c = Ok (nlog (Fin (mc_mu N ws)), x, y).
Proof.
  intros H HN. assert (G : exists x y, detection_efficiency false (enc false ws) c = Ok (nlog (Fin (mc_mu N ws)), x, y)).
  { destruct (count_pos_num c N HN) as (P & q & E). unfold detection_efficiency. rewrite E. cbn [rbind].
    unfold enc. rewrite nsum_fin, (ndiv_fin (Rlsum ws) N) by lra. eauto. }
  destruct log; auto. rewrite (de_modes ws c N); auto.
Qed.

Lemma mc_var_pos N ws : nonneg_list ws -> 0 < Rlsum ws -> INR (length ws) < N -> 0 < mc_var N ws.
Proof.
  intros H P L. pose proof (sumsq_pos ws H P). pose proof (len_pos ws P). pose proof (cs_le ws).
  unfold mc_var, mc_mu. replace (sumsq ws / N ^ 2 - (Rlsum ws / N) ^ 2 / N) with ((N * sumsq ws - Rlsum ws ^ 2) / N ^ 3) by (field; lra).
  apply Rdiv_lt_0_compat; [nra|]. apply pow_lt. lra.
Qed.

Lemma de_val log ws N : nonneg_list ws -> 0 < Rlsum ws -> INR (length ws) < N ->
  detection_efficiency log (enc log ws) (CFloat (Fin N)) =
  Ok (Fin (ln (mc_mu N ws)), Fin (ln (mc_neff N ws)), Fin (/ mc_neff N ws - / N)).
Proof.
  intros H P L. pose proof (len_pos ws P) as LP.
  assert (G : detection_efficiency false (enc false ws) (CFloat (Fin N)) =
    Ok (Fin (ln (mc_mu N ws)), Fin (ln (mc_neff N ws)), Fin (/ mc_neff N ws - / N))).
  { unfold detection_efficiency, enc. cbn [count_num rbind]. rewrite nsum_fin, nsum_sq, (ndiv_fin (Rlsum ws) N), !npowi_fin by lra.
    assert (0 < N ^ 2) by (apply pow_lt; lra).
    rewrite !ndiv_fin by lra. rewrite nsub_fin. fold (mc_mu N ws). fold (mc_var N ws).
    pose proof (mc_var_pos N ws H P L) as V. assert (M : 0 < mc_mu N ws) by (unfold mc_mu; apply Rdiv_lt_0_compat; lra).
    rewrite !nlog_fin by auto. rewrite nmul_fin, nsub_fin, nexp_fin.
    assert (E : 2 * ln (mc_mu N ws) - ln (mc_var N ws) = ln (mc_neff N ws)).
    { unfold mc_neff. rewrite ln_div by (auto; apply pow_lt; auto). simpl pow. rewrite Rmult_1_r, ln_mult by auto. ring. }
    rewrite E, exp_ln by (unfold mc_neff; apply Rdiv_lt_0_compat; auto; apply pow_lt; auto).
    rewrite !ndiv_fin by (try lra; apply Rgt_not_eq; unfold mc_neff; apply Rdiv_lt_0_compat; auto; apply pow_lt; auto).
    rewrite nsub_fin. unfold Rdiv. rewrite !Rmult_1_l. reflexivity. }
  destruct log; auto. rewrite (de_modes ws _ N); auto. right. split; auto. lra.
Qed.

(** integer counts up to 46340 behave like floats *)
Lemma de_int log ws z : (0 <= z <= 46340)%Z ->
  detection_efficiency log ws (CInt z) = detection_efficiency log ws (CFloat (Fin (IZR z))).
Proof.
  intros Hz. unfold detection_efficiency, count_num.
  destruct (Z.leb_spec (- 2 ^ 31) z); [|lia]. destruct (Z.ltb_spec z (2 ^ 31)); [|lia]. cbn [andb rbind].
  replace (int32_wrap (z * z)) with (z * z)%Z. rewrite mult_IZR. reflexivity.
  unfold int32_wrap. rewrite Z.mod_small; nia.
Qed.
Lemma de_int_wrap : exists ws z, nonneg_list ws /\ 0 < Rlsum ws /\ INR (length ws) < IZR z /\ (0 < z < 2 ^ 31)%Z /\
  exists mu ne v, detection_efficiency false (enc false ws) (CFloat (Fin (IZR z))) = Ok (mu, Fin ne, v) /\
  detection_efficiency false (enc false ws) (CInt z) = Ok (mu, NInf, PInf).
Proof.
  exists (1 :: []), 65536%Z. split; [repeat constructor; lra|]. split; [cbn; lra|]. split; [cbn; lra|]. split; [lia|].
  assert (H : nonneg_list (1 :: [])) by (repeat constructor; lra).
  rewrite de_val by (auto; cbn; lra). do 3 eexists. split; [reflexivity|].
  unfold detection_efficiency, count_num.
  replace ((- 2 ^ 31 <=? 65536)%Z && (65536 <? 2 ^ 31)%Z)%bool with true by reflexivity. cbn [rbind].
  replace (int32_wrap (65536 * 65536)) with 0%Z by reflexivity.
  unfold enc. rewrite nsum_fin, nsum_sq, (ndiv_fin (Rlsum (1 :: [])) 65536) by lra. fold (mc_mu 65536 (1 :: [])).
  rewrite (nlog_fin (mc_mu 65536 (1 :: []))) by (unfold mc_mu; cbn; lra).
  rewrite npowi_fin, (ndiv_fin (mc_mu 65536 (1 :: []) ^ 2) 65536) by lra.
  replace (ndiv (Fin (sumsq (1 :: []))) (Fin 0)) with PInf.
  2:{ cbn. rewrite Reqb_t by lra. unfold sumsq; cbn. rewrite sinf_pos by lra. reflexivity. }
  cbn. rewrite Reqb_t by lra. rewrite sinf_pos by lra. rewrite Reqb_f by lra. reflexivity.
Qed.

(** C58: what the third output is, and that it is not a variance *)
Lemma mc_neff_inv N ws : 0 < Rlsum ws -> 0 < N -> / mc_neff N ws = sumsq ws / Rlsum ws ^ 2 - / N.
Proof.
  intros P HN. unfold mc_neff, mc_var, mc_mu. rewrite Rinv_div. field. lra.
Qed.
Lemma de_variance_partial log ws N : nonneg_list ws -> 0 < Rlsum ws -> INR (length ws) < N ->
  exists mu ne v, detection_efficiency log (enc log ws) (CFloat (Fin N)) = Ok (Fin mu, Fin ne, Fin v) /\
    exp ne = mc_neff N ws /\ 0 < exp ne /\ v + / N = mc_var N ws / mc_mu N ws ^ 2 /\ 0 <= v + / N.
Proof.
  intros H P L. rewrite de_val by auto. do 3 eexists. split; [reflexivity|]. pose proof (len_pos ws P).
  assert (M : 0 < mc_mu N ws) by (unfold mc_mu; apply Rdiv_lt_0_compat; lra). pose proof (mc_var_pos N ws H P L).
  assert (Q : 0 < mc_neff N ws) by (unfold mc_neff; apply Rdiv_lt_0_compat; auto; apply pow_lt; auto).
  rewrite exp_ln by auto. repeat split; auto; ring_simplify.
  - unfold mc_neff. apply Rinv_div.
  - left. apply Rinv_0_lt_compat; auto.
Qed.
Lemma de_variance_negative : exists ws N mu ne v, nonneg_list ws /\ 0 < Rlsum ws /\ INR (length ws) < N /\
  detection_efficiency false (enc false ws) (CFloat (Fin N)) = Ok (mu, ne, Fin v) /\ v < 0.
Proof.
  exists [1; 1; 1], 4. assert (H : nonneg_list [1; 1; 1]) by (repeat constructor; lra).
  do 3 eexists. split; auto. split; [cbn; lra|]. split; [cbn; lra|].
  rewrite de_val by (auto; cbn; lra). split; [reflexivity|].
  rewrite mc_neff_inv by (cbn; lra). unfold sumsq; cbn. lra.
Qed.
