(** The code's bases are the textbook B-splines; default knots; partition of unity of the design matrix. *)
From Verif Require Export PBSpline SpecSpline.
Open Scope R_scope.

Lemma Bsum_unity_right t k a n : (2 <= k)%nat -> (1 <= n)%nat -> (forall j, (a <= j < a + n + k - 1)%nat -> t j <= t (S j)) ->
  (k <= n)%nat -> t (a + n)%nat < t (a + n + 1)%nat -> t (a + k - 1)%nat <= t (a + n)%nat -> Bsum t k a n (t (a + n)%nat) = 1.
Proof.
  intros Hk Hn HM Hkn HS HX. destruct k as [|k]; [lia|]. set (x := t (a + n)%nat) in *.
  rewrite Bsum_step by (try lia; intros; apply HM; lia).
  rewrite (Bspline_support t k a).
  2:{ intros; apply HM; lia. } 2:{ right. replace (a + k)%nat with (a + S k - 1)%nat by lia. auto. }
  rewrite Rmult_0_r, Rplus_0_l.
  assert (t (a + n + 1)%nat <= t (a + n + k)%nat) by (apply mono_le; [lia|intros; apply HM; lia]).
  rewrite ratio_val by (fold x; lra). fold x. unfold Rdiv. rewrite Rinv_r by lra. rewrite Rmult_1_l.
  replace (a + n)%nat with (S a + (n - 1))%nat by lia. rewrite <- Bsum_S.
  apply Bsum_unity; [lia|lia| |lia|].
  - intros; apply HM; lia.
  - replace (S a + k - 1)%nat with (a + S k - 1)%nat by lia. replace (S a + S (n - 1))%nat with (a + n + 1)%nat by lia. fold x. lra.
Qed.

(** ** code = textbook *)
Section Code.
Variable ts : list R.
Let t i := nth i ts 0.
Hypothesis HT : spaced_knots ts.

Lemma span j i : (i + j < length ts)%nat -> t (i + j)%nat = t i \/ t i + 1 / 10 ^ 6 <= t (i + j)%nat.
Proof.
  induction j as [|j IH]; intros H; [left; rewrite Nat.add_0_r; auto|].
  pose proof (HT (i + j)%nat ltac:(lia)) as G. replace (S (i + j)) with (i + S j)%nat in G by lia.
  specialize (IH ltac:(lia)). unfold t in *. destruct G as [G|G], IH as [I|I]; rewrite ?G, ?I; lra.
Qed.
Lemma t_mono i : (S i < length ts)%nat -> t i <= t (S i).
Proof. intros H. destruct (HT i H) as [G|G]; unfold t; lra. Qed.

Lemma basis_textbook k i x : (1 <= k)%nat -> (i + k < length ts)%nat ->
  exists v, basis (map Fin ts) k i (Fin x) = Fin v /\ v * (t (i + k)%nat - t i) = INR k * Bspline t k i x /\ (t (i + k)%nat = t i -> v = 0).
Proof.
  revert i. induction k as [|k IH]; intros i Hk Hi; [lia|]. clear Hk.
  destruct (span (S k) i Hi) as [E|G].
  - exists 0. cbn [basis]. rewrite !kn_fin by lia. rewrite nsub_fin. cbn [nlt]. fold (t (i + S k)%nat) (t i). rewrite E, Rltb_t by lra.
    split; auto. split; auto. rewrite Bspline_support; [ring| |].
    + intros j Hj. apply t_mono. lia.
    + destruct (Rlt_dec x (t i)); [left; auto|right; rewrite E; lra].
  - destruct k as [|k].
    + cbn [basis]. rewrite !kn_fin by lia. rewrite nsub_fin. fold (t (i + 1)%nat) (t i). cbn [nlt]. rewrite Rltb_f by lra.
      unfold nge. cbn [nle nlt Bspline]. destruct (_ && _)%bool.
      * rewrite ndiv_fin by lra. eexists. split; [reflexivity|]. change (INR 1) with 1. split; [field; lra|lra].
      * eexists. split; [reflexivity|]. split; [cbn; ring|auto].
    + destruct (IH i ltac:(lia) ltac:(lia)) as (v1 & E1 & V1 & Z1). destruct (IH (i + 1)%nat ltac:(lia) ltac:(lia)) as (v2 & E2 & V2 & Z2).
      assert (EB : basis (map Fin ts) (S (S k)) i (Fin x) =
        if nlt (nsub (kn (map Fin ts) (i + S (S k))) (kn (map Fin ts) i)) (Fin (1 / 10 ^ 6)) then Fin 0 else
        ndiv (nmul (nadd (nmul (nsub (Fin x) (kn (map Fin ts) i)) (basis (map Fin ts) (S k) i (Fin x)))
                         (nmul (nsub (kn (map Fin ts) (i + S (S k))) (Fin x)) (basis (map Fin ts) (S k) (i + 1) (Fin x)))) (Fin (INR (S (S k)))))
             (nmul (Fin (INR (S k))) (nsub (kn (map Fin ts) (i + S (S k))) (kn (map Fin ts) i)))) by reflexivity.
      rewrite EB, E1, E2, !kn_fin by lia. fold (t (i + S (S k))%nat) (t i). rewrite !nsub_fin. cbn [nlt]. rewrite Rltb_f by lra.
      assert (PK : 0 < INR (S k)) by (apply lt_0_INR; lia).
      rewrite !nmul_fin, nadd_fin, nmul_fin, ndiv_fin by (apply Rmult_integral_contrapositive_currified; lra).
      eexists. split; [reflexivity|]. split; [|lra].
      rewrite Bspline_S by lia.
      assert (W1 : ratio (x - t i) (t (i + S k)%nat - t i) * Bspline t (S k) i x = (x - t i) * v1 / INR (S k)).
      { destruct (Req_dec (t (i + S k)%nat) (t i)) as [Q|Q].
        - rewrite Q, Rminus_eq_0, ratio_0, (Z1 Q). unfold Rdiv. ring.
        - rewrite ratio_val by lra. replace (Bspline t (S k) i x) with (v1 * (t (i + S k)%nat - t i) / INR (S k)) by (rewrite V1; field; lra). field. split; lra. }
      assert (W2 : ratio (t (i + S (S k))%nat - x) (t (i + S (S k))%nat - t (i + 1)%nat) * Bspline t (S k) (i + 1) x = (t (i + S (S k))%nat - x) * v2 / INR (S k)).
      { replace (i + S (S k))%nat with (i + 1 + S k)%nat by lia. destruct (Req_dec (t (i + 1 + S k)%nat) (t (i + 1)%nat)) as [Q|Q].
        - rewrite Q, Rminus_eq_0, ratio_0, (Z2 Q). unfold Rdiv. ring.
        - rewrite ratio_val by lra. replace (Bspline t (S k) (i + 1) x) with (v2 * (t (i + 1 + S k)%nat - t (i + 1)%nat) / INR (S k)) by (rewrite V2; field; lra). field. split; lra. }
      rewrite W1, W2. field. split; lra.
Qed.

Lemma raw_textbook s k i x : s <> KBasis -> (1 <= k)%nat -> (i + k < length ts)%nat ->
  raw_basis s (map Fin ts) k i (Fin x) = Fin (Bspline t k i x).
Proof.
  intros Hs Hk Hi. destruct (basis_textbook k i x Hk Hi) as (v & E & V & _).
  assert (PK : 0 < INR k) by (apply lt_0_INR; lia).
  assert (G : nmul (ndiv (nsub (kn (map Fin ts) (i + k)) (kn (map Fin ts) i)) (Fin (INR k))) (basis (map Fin ts) k i (Fin x)) = Fin (Bspline t k i x)).
  { rewrite E, !kn_fin by lia. fold (t (i + k)%nat) (t i). rewrite nsub_fin, ndiv_fin, nmul_fin by lra. apply (f_equal Fin).
    replace (Bspline t k i x) with (INR k * Bspline t k i x / INR k) by (field; lra). rewrite <- V. field. lra. }
  destruct s; try congruence; exact G.
Qed.
End Code.

(** in-range values of the design matrix *)
Lemma basis_value_in s ts k lo hi i x : spaced_knots ts -> s <> KBasis -> (1 <= k)%nat -> (i + k < length ts)%nat ->
  (if logx s then 0 < x /\ lo <= ln x <= hi else lo <= x <= hi) ->
  basis_value s (map Fin ts) k (Fin lo) (Fin hi) i (Fin x) = Fin (Bspline (fun j => nth j ts 0) k i (if logx s then ln x else x)).
Proof.
  intros HT Hs Hk Hi HX. unfold basis_value.
  assert (EU : (if logx s then nlog (Fin x) else Fin x) = Fin (if logx s then ln x else x)).
  { destruct (logx s); auto. apply nlog_fin. tauto. }
  rewrite EU. rewrite raw_textbook by auto.
  assert (G : forall o v, oob_where (Fin lo) (Fin hi) (Fin (if logx s then ln x else x)) o v = v).
  { intros o v. unfold oob_where, ngt. cbn [nlt]. destruct (logx s); rewrite !Rltb_f by lra; reflexivity. }
  rewrite !G. destruct s; try congruence; reflexivity.
Qed.
Lemma basis_value_out s ts k lo hi i x : (logy s = false) -> x < lo \/ hi < x -> logx s = false ->
  basis_value s ts k (Fin lo) (Fin hi) i (Fin x) = Fin 0.
Proof.
  intros HL HX HLX. unfold basis_value. rewrite HLX. unfold oob_where, ngt. cbn [nlt].
  replace (Rltb x lo || Rltb hi x)%bool with true; [destruct s; try discriminate; reflexivity|].
  symmetry. apply orb_true_iff. destruct HX; [left|right]; apply Rltb_t; auto.
Qed.

(** ** default knots *)
Definition uniform (a b : R) (n k : nat) : list R :=
  map (fun i => a + (INR i - INR (k - 1)) * ((b - a) / INR (n + 1 - k))) (seq 0 (n + k)).

Lemma default_knots n k a b : (1 <= k <= n)%nat -> make_knots n k None None (Fin a) (Fin b) = Ok (map Fin (uniform a b n k)).
Proof.
  intros H. unfold make_knots, option_map. 
  assert (EZ : (Z.of_nat n - Z.of_nat k + 2 <? 0)%Z = false) by (apply Z.ltb_ge; lia). rewrite EZ. cbn [rbind].
  rewrite nlinspace_fin by lia.
  assert (LI : length (rlinspace a b (n + 2 - k)) = (n + 2 - k)%nat) by apply rlinspace_length.
  destruct (rlinspace a b (n + 2 - k)) as [|r0 [|r1 r]] eqn:ER; cbn in LI; try lia.
  assert (E0 : r0 = a).
  { assert (G : nth 0 (rlinspace a b (n + 2 - k)) 0 = r0) by (rewrite ER; reflexivity). rewrite rlinspace_nth in G by lia. rewrite <- G. cbn. ring. }
  assert (E1 : r1 = a + (b - a) / INR (n + 1 - k)).
  { assert (G : nth 1 (rlinspace a b (n + 2 - k)) 0 = r1) by (rewrite ER; reflexivity). rewrite rlinspace_nth in G by lia. rewrite <- G. cbn [INR].
    replace (n + 2 - k - 1)%nat with (n + 1 - k)%nat by lia. ring. }
  cbn [map]. cbn [length]. rewrite map_length. rewrite nsub_fin, nmul_fin, nsub_fin, nadd_fin.
  assert (LR : length r = (n - k)%nat) by lia. rewrite LR.
  rewrite nlinspace_fin by lia. apply (f_equal (fun l => Ok (map Fin l))).
  subst r0 r1. unfold rlinspace, uniform.
  replace (S (S (n - k)) + (k - 1) * 2)%nat with (n + k)%nat by lia. apply map_ext_in. intros i Hi.
  assert (PD : 0 < INR (n + 1 - k)) by (apply lt_0_INR; lia).
  assert (PN : 0 < INR (n + k - 1)) by (apply lt_0_INR; lia).
  assert (NE : INR (n + k - 1) = INR (n + 1 - k) + 2 * INR (k - 1)) by (rewrite !minus_INR, !plus_INR by lia; cbn; ring).
  field_simplify_eq; [|lra]. rewrite NE. ring.
Qed.
Lemma default_knots_fail n k a b : (n < k)%nat -> exists e, make_knots n k None None a b = Err e.
Proof.
  intros H. unfold make_knots. destruct (_ <? _)%Z eqn:EZ; [cbn; eauto|]. apply Z.ltb_ge in EZ. cbn [rbind].
  assert (n + 2 - k = 0 \/ n + 2 - k = 1)%nat as [->| ->] by lia; cbn; eauto.
Qed.

Section Uniform.
Variables (a b : R) (n k : nat).
Hypothesis HK : (1 <= k <= n)%nat.
Hypothesis HAB : a < b.
Let d := (b - a) / INR (n + 1 - k).
Lemma step_pos : 0 < d.
Proof. unfold d. apply Rdiv_lt_0_compat; [lra|]. apply lt_0_INR. lia. Qed.
Lemma uniform_length : length (uniform a b n k) = (n + k)%nat.
Proof. unfold uniform. rewrite map_length, seq_length. auto. Qed.
Lemma uniform_nth i : (i < n + k)%nat -> nth i (uniform a b n k) 0 = a + (INR i - INR (k - 1)) * d.
Proof.
  intros H. unfold uniform, d. set (f := fun i => _). rewrite (nth_indep _ 0 (f O)) by (rewrite map_length, seq_length; auto).
  rewrite map_nth, seq_nth by auto. reflexivity.
Qed.
Lemma uniform_step i : (S i < n + k)%nat -> nth (S i) (uniform a b n k) 0 = nth i (uniform a b n k) 0 + d.
Proof. intros H. rewrite !uniform_nth by lia. rewrite S_INR. ring. Qed.
Lemma uniform_lo : nth (k - 1) (uniform a b n k) 0 = a.
Proof. rewrite uniform_nth by lia. ring. Qed.
Lemma uniform_hi : nth n (uniform a b n k) 0 = b.
Proof.
  rewrite uniform_nth by lia. unfold d. assert (0 < INR (n + 1 - k)) by (apply lt_0_INR; lia).
  replace (INR n - INR (k - 1)) with (INR (n + 1 - k)) by (rewrite !minus_INR, plus_INR by lia; cbn; ring). field. lra.
Qed.
Lemma uniform_spaced : 1 / 10 ^ 6 <= d -> spaced_knots (uniform a b n k).
Proof. intros H i Hi. rewrite uniform_length in Hi. right. rewrite uniform_step by lia. lra. Qed.

Lemma uniform_unity x : 1 / 10 ^ 6 <= d -> a <= x <= b -> (2 <= k)%nat \/ x < b ->
  Bsum (fun j => nth j (uniform a b n k) 0) k 0 n x = 1.
Proof.
  intros Hd HX HC. pose proof step_pos.
  assert (HM : forall j, (0 <= j < 0 + n + k - 1)%nat -> nth j (uniform a b n k) 0 <= nth (S j) (uniform a b n k) 0).
  { intros j Hj. rewrite uniform_step by lia. lra. }
  destruct (Rlt_dec x b) as [L|L].
  - apply (Bsum_unity (fun j => nth j (uniform a b n k) 0)); [lia|lia|exact HM|lia|]. cbn [Nat.add]. rewrite uniform_lo, uniform_hi. lra.
  - assert (x = b) by lra. subst x. destruct HC as [HC|HC]; [|lra].
    pose proof (Bsum_unity_right (fun j => nth j (uniform a b n k) 0) k 0 n HC ltac:(lia) HM ltac:(lia)) as G. cbn [Nat.add] in G.
    rewrite uniform_lo, uniform_hi in G. apply G; [|lra]. replace (n + 1)%nat with (S n) by lia. rewrite uniform_step by lia. rewrite uniform_hi. lra.
Qed.
End Uniform.
