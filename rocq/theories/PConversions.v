(** Proofs about [MConversions]. *)
From Verif Require Export NumFacts ArrFacts MConversions.
Open Scope list_scope.
Open Scope R_scope.

Lemma chieff_fin q a1 a2 c1 c2 : 0 <= q ->
  chieff (Fin q) (Fin a1) (Fin a2) (Fin c1) (Fin c2) = Fin ((a1 * c1 + q * a2 * c2) / (1 + q)).
Proof. intros. unfold chieff. cbn [nmul nadd]. rewrite ndiv_fin by lra. reflexivity. Qed.

Lemma prod_bound a c : 0 <= a <= 1 -> -1 <= c <= 1 -> -1 <= a * c <= 1.
Proof. intros. nra. Qed.
Lemma prod_one a c : 0 <= a <= 1 -> -1 <= c <= 1 -> a * c = 1 -> a = 1 /\ c = 1.
Proof. intros. assert (a = 1) by nra. subst. lra. Qed.
Lemma prod_mone a c : 0 <= a <= 1 -> -1 <= c <= 1 -> a * c = -1 -> a = 1 /\ c = -1.
Proof. intros. assert (a = 1) by nra. subst. lra. Qed.

Lemma chieff_physical q a1 a2 c1 c2 : 0 <= q -> 0 <= a1 <= 1 -> 0 <= a2 <= 1 -> -1 <= c1 <= 1 -> -1 <= c2 <= 1 ->
  exists x, chieff (Fin q) (Fin a1) (Fin a2) (Fin c1) (Fin c2) = Fin x /\ -1 <= x <= 1 /\
    x * (1 + q) = a1 * c1 + q * (a2 * c2) /\
    chieff (Fin q) (Fin a1) (Fin a2) (Fin (- c1)) (Fin (- c2)) = Fin (- x) /\
    (x = 1 <-> a1 = 1 /\ c1 = 1 /\ (q = 0 \/ a2 = 1 /\ c2 = 1)) /\
    (x = -1 <-> a1 = 1 /\ c1 = -1 /\ (q = 0 \/ a2 = 1 /\ c2 = -1)).
Proof.
  intros Hq H1 H2 G1 G2. rewrite !chieff_fin by auto. eexists; split; [reflexivity|].
  set (x := (a1 * c1 + q * a2 * c2) / (1 + q)).
  assert (E : x * (1 + q) = a1 * c1 + q * (a2 * c2)) by (unfold x; field; lra).
  pose proof (prod_bound a1 c1 H1 G1) as B1. pose proof (prod_bound a2 c2 H2 G2) as B2.
  assert (Bx : -1 <= x <= 1) by nra.
  repeat split; try tauto; try lra.
  - f_equal. unfold x. field. lra.
  - assert (a1 * c1 = 1) by nra. apply (prod_one a1 c1); auto.
  - assert (a1 * c1 = 1) by nra. apply (prod_one a1 c1); auto.
  - assert (q * (a2 * c2 - 1) = 0) as Hz by nra. destruct (Rmult_integral _ _ Hz) as [->|Hz']; [auto|].
    right. apply prod_one; auto. lra.
  - intros (-> & -> & [->|[-> ->]]); unfold x; field; lra.
  - assert (a1 * c1 = -1) by nra. apply (prod_mone a1 c1); auto.
  - assert (a1 * c1 = -1) by nra. apply (prod_mone a1 c1); auto.
  - assert (q * (a2 * c2 + 1) = 0) as Hz by nra. destruct (Rmult_integral _ _ Hz) as [->|Hz']; [auto|].
    right. apply prod_mone; auto. lra.
  - intros (-> & -> & [->|[-> ->]]); unfold x; field; lra.
Qed.

Lemma sqrt_unit c : -1 <= c <= 1 -> 0 <= sqrt (1 - c ^ 2) <= 1.
Proof.
  intros H. split; [apply sqrt_pos|]. rewrite <- sqrt_1 at 2. apply sqrt_le_1_alt. nra.
Qed.

Lemma chip_fin q a1 a2 c1 c2 : 0 <= q -> -1 <= c1 <= 1 -> -1 <= c2 <= 1 ->
  chip (Fin q) (Fin a1) (Fin a2) (Fin c1) (Fin c2)
  = Fin (Rmax (a1 * sqrt (1 - c1 ^ 2)) ((3 + 4 * q) / (4 + 3 * q) * q * a2 * sqrt (1 - c2 ^ 2))).
Proof.
  intros. unfold chip. rewrite !npowi_fin, !nsub_fin, !nsqrt_fin by nra.
  rewrite !nmul_fin, !nadd_fin, ndiv_fin by lra. rewrite !nmul_fin.
  cbn [nmax nle]. unfold Rmax, Rleb. destruct (Rle_dec _ _); reflexivity.
Qed.

Lemma chip_physical q a1 a2 c1 c2 : 0 <= q <= 1 -> 0 <= a1 <= 1 -> 0 <= a2 <= 1 -> -1 <= c1 <= 1 -> -1 <= c2 <= 1 ->
  exists x, chip (Fin q) (Fin a1) (Fin a2) (Fin c1) (Fin c2) = Fin x /\ 0 <= x <= 1 /\
    a1 * sqrt (1 - c1 * c1) <= x /\
    (3 + 4 * q) / (4 + 3 * q) * q * (a2 * sqrt (1 - c2 * c2)) <= x /\
    (x = a1 * sqrt (1 - c1 * c1) \/ x = (3 + 4 * q) / (4 + 3 * q) * q * (a2 * sqrt (1 - c2 * c2))) /\
    (forall s1 s2, s1 = 1 \/ s1 = -1 -> s2 = 1 \/ s2 = -1 ->
       chip (Fin q) (Fin a1) (Fin a2) (Fin (s1 * c1)) (Fin (s2 * c2)) = Fin x).
Proof.
  intros Hq H1 H2 G1 G2. rewrite chip_fin by (auto; lra). eexists; split; [reflexivity|].
  set (u := a1 * sqrt (1 - c1 ^ 2)). set (w := (3 + 4 * q) / (4 + 3 * q) * q * a2 * sqrt (1 - c2 ^ 2)).
  assert (Eu : a1 * sqrt (1 - c1 * c1) = u) by (unfold u; repeat f_equal; ring).
  assert (Ew : (3 + 4 * q) / (4 + 3 * q) * q * (a2 * sqrt (1 - c2 * c2)) = w).
  { unfold w. rewrite (Rmult_assoc _ a2). do 4 f_equal. ring. }
  rewrite Eu, Ew.
  pose proof (sqrt_unit c1 G1). pose proof (sqrt_unit c2 G2).
  assert (0 <= u <= 1) by (unfold u; nra).
  assert (Hf : 0 <= (3 + 4 * q) / (4 + 3 * q) <= 1).
  { split; [apply Rdiv_le_0_compat; lra|]. apply Rmult_le_reg_r with (4 + 3 * q); [lra|].
    unfold Rdiv. rewrite Rmult_assoc, Rinv_l; lra. }
  assert (0 <= w <= 1).
  { unfold w. assert (0 <= (3 + 4 * q) / (4 + 3 * q) * q <= 1) by nra.
    assert (0 <= (3 + 4 * q) / (4 + 3 * q) * q * a2 <= 1) by nra. nra. }
  split; [|split; [|split; [|split]]].
  - unfold Rmax; destruct (Rle_dec u w); lra.
  - apply Rmax_l.
  - apply Rmax_r.
  - unfold Rmax; destruct (Rle_dec u w); auto.
  - intros s1 s2 S1 S2. rewrite chip_fin by (destruct S1, S2; subst; lra).
    f_equal. unfold u, w. replace ((s1 * c1) ^ 2) with (c1 ^ 2) by (destruct S1; subst; ring).
    replace ((s2 * c2) ^ 2) with (c2 ^ 2) by (destruct S2; subst; ring). reflexivity.
Qed.

Lemma mu_var_fin a b x : 0 < a -> 0 < b ->
  mu_var_from_alpha_beta (Fin a) (Fin b) (Fin x)
  = (Fin (a / (a + b) * x), Fin (a * b / ((a + b) ^ 2 * (a + b + 1)) * x ^ 2)).
Proof.
  intros Ha Hb. unfold mu_var_from_alpha_beta.
  rewrite !nadd_fin, !npowi_fin, !nmul_fin.
  assert (0 < (a + b) ^ 2 * (a + b + 1)) by (apply Rmult_lt_0_compat; nra).
  rewrite !ndiv_fin by lra. rewrite !nmul_fin. reflexivity.
Qed.

Lemma alpha_beta_fin m v x : 0 < x -> v <> 0 ->
  alpha_beta_from_mu_var (Fin m) (Fin v) (Fin x)
  = (Fin (((m / x) ^ 2 * (1 - m / x) - m / x * (v / x ^ 2)) / (v / x ^ 2)),
     Fin ((m / x * (1 - m / x) ^ 2 - (1 - m / x) * (v / x ^ 2)) / (v / x ^ 2))).
Proof.
  intros Hx Hv. unfold alpha_beta_from_mu_var, alpha_expr, beta_expr.
  assert (x ^ 2 <> 0) by nra.
  rewrite !npowi_fin. rewrite !ndiv_fin by (auto; lra).
  assert (v / x ^ 2 <> 0).
  { unfold Rdiv. apply Rmult_integral_contrapositive_currified; auto. apply Rinv_neq_0_compat; auto. }
  rewrite !nsub_fin, !npowi_fin, !nmul_fin, !nsub_fin. rewrite !ndiv_fin by auto. reflexivity.
Qed.

Lemma roundtrip_shapes a b x : 0 < a -> 0 < b -> 0 < x ->
  exists m v, mu_var_from_alpha_beta (Fin a) (Fin b) (Fin x) = (Fin m, Fin v) /\
    0 < m < x /\ 0 < v < m * (x - m) /\
    alpha_beta_from_mu_var (Fin m) (Fin v) (Fin x) = (Fin a, Fin b).
Proof.
  intros Ha Hb Hx. rewrite mu_var_fin by auto.
  do 2 eexists; split; [reflexivity|].
  set (s := a + b). assert (Hs : 0 < s) by (unfold s; lra).
  assert (Hm : 0 < a / s < 1).
  { split; [apply Rdiv_lt_0_compat; auto|]. apply Rmult_lt_reg_r with s; auto.
    unfold Rdiv. rewrite Rmult_assoc, Rinv_l; unfold s; lra. }
  assert (E : a * b / (s ^ 2 * (s + 1)) * x ^ 2 = (a / s) * (1 - a / s) / (s + 1) * x ^ 2).
  { replace b with (s - a) by (unfold s; ring). field. lra. }
  assert (Hv : 0 < a * b / (s ^ 2 * (s + 1)) * x ^ 2).
  { apply Rmult_lt_0_compat; [|nra]. apply Rdiv_lt_0_compat; [nra|]. apply Rmult_lt_0_compat; nra. }
  split; [nra|]. split; [split; [auto|]|].
  - rewrite E. replace (a / s * x * (x - a / s * x)) with ((a / s) * (1 - a / s) * x ^ 2) by ring.
    apply Rmult_lt_compat_r; [nra|]. assert (0 < a / s * (1 - a / s)) by nra.
    apply Rmult_lt_reg_r with (s + 1); [lra|]. unfold Rdiv at 1. rewrite Rmult_assoc, Rinv_l by lra. nra.
  - rewrite alpha_beta_fin by (auto; lra). unfold s in *. f_equal; f_equal; field; repeat split; try lra; nra.
Qed.

Lemma roundtrip_moments m v x : 0 < m < x -> 0 < v < m * (x - m) ->
  exists a b, alpha_beta_from_mu_var (Fin m) (Fin v) (Fin x) = (Fin a, Fin b) /\ 0 < a /\ 0 < b /\
    mu_var_from_alpha_beta (Fin a) (Fin b) (Fin x) = (Fin m, Fin v).
Proof.
  intros Hm Hv. rewrite alpha_beta_fin by lra.
  do 2 eexists; split; [reflexivity|].
  set (u := m / x). set (w := v / x ^ 2).
  assert (Hx2 : 0 < x ^ 2) by nra.
  assert (Hu : 0 < u < 1).
  { unfold u. split; [apply Rdiv_lt_0_compat; lra|]. apply Rmult_lt_reg_r with x; [lra|].
    unfold Rdiv. rewrite Rmult_assoc, Rinv_l; lra. }
  assert (Hw : 0 < w < u * (1 - u)).
  { unfold w, u. split; [apply Rdiv_lt_0_compat; lra|].
    apply Rmult_lt_reg_r with (x ^ 2); auto. unfold Rdiv at 1. rewrite Rmult_assoc, Rinv_l by lra.
    replace (m / x * (1 - m / x) * x ^ 2) with (m * (x - m)) by (field; lra). lra. }
  set (a := (u ^ 2 * (1 - u) - u * w) / w). set (b := (u * (1 - u) ^ 2 - (1 - u) * w) / w).
  assert (Ea : a = u * ((u * (1 - u) - w) / w)) by (unfold a; field; lra).
  assert (Eb : b = (1 - u) * ((u * (1 - u) - w) / w)) by (unfold b; field; lra).
  assert (Hr : 0 < (u * (1 - u) - w) / w) by (apply Rdiv_lt_0_compat; lra).
  assert (Ha : 0 < a) by (rewrite Ea; nra). assert (Hb : 0 < b) by (rewrite Eb; nra).
  split; [auto|]. split; [auto|].
  rewrite mu_var_fin by auto. rewrite Ea, Eb. set (r := (u * (1 - u) - w) / w) in *.
  replace (u * r + (1 - u) * r) with r by ring.
  assert (Er : r + 1 = u * (1 - u) / w) by (unfold r; field; lra).
  f_equal; f_equal.
  - unfold u. field. lra.
  - rewrite Er. replace (u * r * ((1 - u) * r) / (r ^ 2 * (u * (1 - u) / w)) * x ^ 2) with (w * x ^ 2).
    + unfold w. field. lra.
    + field. lra.
Qed.

(** in-place updates *)
Lemma ndiv_1 x : (x / Fin 1)%num = x.
Proof.
  destruct x; cbn; rewrite ?Reqb_f by lra; rewrite ?Rltb_f by lra; auto. f_equal. field.
Qed.
Lemma npowi_1_2 : npowi (Fin 1) 2 = Fin 1. Proof. rewrite npowi_fin. f_equal. ring. Qed.
Lemma map_ndiv_1 l : map (fun x => (x / Fin 1)%num) l = l.
Proof. rewrite <- (map_id l) at 2. apply map_ext. intros; apply ndiv_1. Qed.

Lemma heap_unit_xmax h mu var p : fst (alpha_beta_from_mu_var_heap h mu var (Fin 1)) p = h p.
Proof.
  unfold alpha_beta_from_mu_var_heap. rewrite npowi_1_2.
  destruct mu as [l|r], var as [l'|r']; cbn [idiv fst]; unfold hupd; rewrite ?map_ndiv_1;
    repeat match goal with |- context [Nat.eqb ?a ?b] => destruct (Nat.eqb_spec a b); subst end; auto;
    rewrite ?map_ndiv_1; auto.
Qed.

Lemma heap_immutable h l l' xmax p : fst (alpha_beta_from_mu_var_heap h (Imm l) (Imm l') xmax) p = h p.
Proof. reflexivity. Qed.

Lemma heap_immutable_value h mu var xmax : length mu = length var ->
  snd (alpha_beta_from_mu_var_heap h (Imm mu) (Imm var) xmax)
  = (map2 (fun m v => fst (alpha_beta_from_mu_var m v xmax)) mu var,
     map2 (fun m v => snd (alpha_beta_from_mu_var m v xmax)) mu var).
Proof.
  intros _. unfold alpha_beta_from_mu_var_heap. cbn [idiv snd readarr].
  rewrite !map2_map. reflexivity.
Qed.

Lemma heap_mutation h p x : x <> 0 -> x <> 1 -> forall var m l, h p = Fin m :: l -> m <> 0 -> var <> Ref p ->
  fst (alpha_beta_from_mu_var_heap h (Ref p) var (Fin x)) p <> h p.
Proof.
  intros Hx Hx1 var m l Hp Hm Hv. unfold alpha_beta_from_mu_var_heap.
  assert (E : map (fun y => (y / Fin x)%num) (h p) <> h p).
  { rewrite Hp. cbn [map]. rewrite ndiv_fin by auto. intros E. injection E. intros _ E'.
    apply Hx1. apply Rmult_eq_reg_l with (m / x).
    - unfold Rdiv at 1. rewrite Rmult_assoc, Rinv_l by auto. lra.
    - rewrite E'. auto. }
  destruct var as [l'|r]; cbn [idiv fst]; unfold hupd.
  - rewrite Nat.eqb_refl. auto.
  - destruct (Nat.eqb_spec p r) as [->|Hne]; [contradiction Hv; reflexivity|].
    rewrite Nat.eqb_refl. auto.
Qed.

Lemma heap_twice_refuted : exists h mu var xmax,
  let '(h1, r1) := alpha_beta_from_mu_var_heap h mu var xmax in
  let '(_, r2) := alpha_beta_from_mu_var_heap h1 mu var xmax in
  r1 <> r2.
Proof.
  exists (fun p => if Nat.eqb p 0 then (Fin 1 :: []) else (Fin 1 :: [])), (Ref 0%nat), (Ref 1%nat), (Fin 2).
  cbn [alpha_beta_from_mu_var_heap idiv hupd readarr Nat.eqb map map2].
  unfold alpha_beta_from_mu_var_heap, idiv. unfold hupd, readarr. cbn [Nat.eqb map map2].
  rewrite !npowi_fin. rewrite !ndiv_fin by lra.
  unfold alpha_expr, beta_expr. rewrite !npowi_fin, !nsub_fin, !nmul_fin, !nsub_fin, !npowi_fin, !nmul_fin, !nsub_fin.
  rewrite !ndiv_fin by lra. intros E. injection E. intros _ E'. field_simplify in E'. lra.
Qed.
Lemma heap_unchanged h mu var xmax p :
  xmax = Fin 1 \/ (exists l l', mu = Imm l /\ var = Imm l') ->
  fst (alpha_beta_from_mu_var_heap h mu var xmax) p = h p.
Proof. intros [-> | (l & l' & -> & ->)]; [apply heap_unit_xmax | reflexivity]. Qed.
Lemma heap_effect h p r x : p <> r -> let out := alpha_beta_from_mu_var_heap h (Ref p) (Ref r) x in
  fst out p = map (fun m => (m / x)%num) (h p) /\ fst out r = map (fun v => (v / npowi x 2)%num) (h r) /\ (forall o, o <> p -> o <> r -> fst out o = h o) /\
  snd out = (map2 (fun m v => fst (alpha_beta_from_mu_var m v x)) (h p) (h r), map2 (fun m v => snd (alpha_beta_from_mu_var m v x)) (h p) (h r)).
Proof.
  intros N. cbv zeta. unfold alpha_beta_from_mu_var_heap, idiv, readarr, hupd. cbn [fst snd]. apply Nat.eqb_neq in N as E. assert (E' : Nat.eqb r p = false) by (rewrite Nat.eqb_sym; exact E).
  rewrite E, E', !Nat.eqb_refl. split; auto. split; auto. split; [intros o H1 H2; apply Nat.eqb_neq in H1, H2; rewrite H1, H2; auto|]. rewrite !map2_map. reflexivity.
Qed.
