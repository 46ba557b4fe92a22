(** Property theorems C14-C17 and C104 (gwinferno/preprocess/conversions.py). *)
From Verif Require Import PConversions PBetaMoments.
From Verif Require Import Spec Spec2.
Open Scope list_scope.
Open Scope R_scope.

(** C14 *)
Theorem C14_chieff_physical : forall q a1 a2 c1 c2,
  0 <= q -> 0 <= a1 <= 1 -> 0 <= a2 <= 1 -> -1 <= c1 <= 1 -> -1 <= c2 <= 1 ->
  exists x, chieff (Fin q) (Fin a1) (Fin a2) (Fin c1) (Fin c2) = Fin x /\ -1 <= x <= 1 /\
    x * (1 + q) = a1 * c1 + q * (a2 * c2) /\
    chieff (Fin q) (Fin a1) (Fin a2) (Fin (- c1)) (Fin (- c2)) = Fin (- x) /\
    (x = 1 <-> a1 = 1 /\ c1 = 1 /\ (q = 0 \/ a2 = 1 /\ c2 = 1)) /\
    (x = -1 <-> a1 = 1 /\ c1 = -1 /\ (q = 0 \/ a2 = 1 /\ c2 = -1)).
Proof. exact chieff_physical. Qed.
Print Assumptions C14_chieff_physical.
Example C14_case : 0 <= 1/2 /\ 0 <= 7/10 <= 1 /\ -1 <= -1/2 <= 1. Proof. lra. Qed.

(** C15 *)
Theorem C15_chip_physical : forall q a1 a2 c1 c2,
  0 <= q <= 1 -> 0 <= a1 <= 1 -> 0 <= a2 <= 1 -> -1 <= c1 <= 1 -> -1 <= c2 <= 1 ->
  exists x, chip (Fin q) (Fin a1) (Fin a2) (Fin c1) (Fin c2) = Fin x /\ 0 <= x <= 1 /\
    a1 * sqrt (1 - c1 * c1) <= x /\
    (3 + 4 * q) / (4 + 3 * q) * q * (a2 * sqrt (1 - c2 * c2)) <= x /\
    (x = a1 * sqrt (1 - c1 * c1) \/ x = (3 + 4 * q) / (4 + 3 * q) * q * (a2 * sqrt (1 - c2 * c2))) /\
    (forall s1 s2, s1 = 1 \/ s1 = -1 -> s2 = 1 \/ s2 = -1 ->
       chip (Fin q) (Fin a1) (Fin a2) (Fin (s1 * c1)) (Fin (s2 * c2)) = Fin x).
Proof. exact chip_physical. Qed.
Print Assumptions C15_chip_physical.
Example C15_case : 0 <= 1/2 <= 1 /\ 0 <= 7/10 <= 1 /\ -1 <= -1/2 <= 1. Proof. lra. Qed.

(** C16 *)
Theorem C16_shapes_roundtrip : forall a b x, 0 < a -> 0 < b -> 0 < x ->
  exists m v, mu_var_from_alpha_beta (Fin a) (Fin b) (Fin x) = (Fin m, Fin v) /\
    0 < m < x /\ 0 < v < m * (x - m) /\
    alpha_beta_from_mu_var (Fin m) (Fin v) (Fin x) = (Fin a, Fin b).
Proof. exact roundtrip_shapes. Qed.
Print Assumptions C16_shapes_roundtrip.
Theorem C16_moments_roundtrip : forall m v x, 0 < m < x -> 0 < v < m * (x - m) ->
  exists a b, alpha_beta_from_mu_var (Fin m) (Fin v) (Fin x) = (Fin a, Fin b) /\ 0 < a /\ 0 < b /\
    mu_var_from_alpha_beta (Fin a) (Fin b) (Fin x) = (Fin m, Fin v).
Proof. exact roundtrip_moments. Qed.
Print Assumptions C16_moments_roundtrip.
Example C16_case : 0 < 1/4 < 1 /\ 0 < 1/20 < 1/4 * (1 - 1/4). Proof. lra. Qed.
(** the mean and variance are those of the Beta density on [0,x] in a concrete case (shapes 2,2: 1/2, 1/20) *)
Example C16_beta22 : mu_var_from_alpha_beta (Fin 2) (Fin 2) (Fin 1) = (Fin (1/2), Fin (1/20)).
Proof. rewrite mu_var_fin by lra. f_equal; f_equal; field. Qed.

(** C17: holds for immutable arguments or xmax = 1, fails for numpy arrays otherwise *)
Theorem C17_arguments_unchanged_partial : forall h mu var xmax p,
  xmax = Fin 1 \/ (exists l l', mu = Imm l /\ var = Imm l') ->
  fst (alpha_beta_from_mu_var_heap h mu var xmax) p = h p.
Proof. exact heap_unchanged. Qed.
Print Assumptions C17_arguments_unchanged_partial.
Theorem C17_arguments_changed_refuted : forall h p x var m l,
  x <> 0 -> x <> 1 -> h p = Fin m :: l -> m <> 0 -> var <> Ref p ->
  fst (alpha_beta_from_mu_var_heap h (Ref p) var (Fin x)) p <> h p.
Proof. exact (fun h p x var m l Hx Hx1 => heap_mutation h p x Hx Hx1 var m l). Qed.
Print Assumptions C17_arguments_changed_refuted.
Theorem C17_second_call_differs_refuted : exists h mu var xmax,
  let '(h1, r1) := alpha_beta_from_mu_var_heap h mu var xmax in
  let '(_, r2) := alpha_beta_from_mu_var_heap h1 mu var xmax in
  r1 <> r2.
Proof. exact heap_twice_refuted. Qed.
Print Assumptions C17_second_call_differs_refuted.
(** exactly what happens to two different numpy arrays: the results are those of the given values, and both arrays are left rescaled *)
Theorem C17_effect_refuted : forall h p r x, p <> r -> let out := alpha_beta_from_mu_var_heap h (Ref p) (Ref r) x in
  fst out p = map (fun m => (m / x)%num) (h p) /\ fst out r = map (fun v => (v / npowi x 2)%num) (h r) /\ (forall o, o <> p -> o <> r -> fst out o = h o) /\
  snd out = (map2 (fun m v => fst (alpha_beta_from_mu_var m v x)) (h p) (h r), map2 (fun m v => snd (alpha_beta_from_mu_var m v x)) (h p) (h r)).
Proof. exact heap_effect. Qed.
Print Assumptions C17_effect_refuted.
Example C17_case : exists (h : heap), h 0%nat = Fin (1/2) :: [] /\ 1/2 <> 0 /\ 2 <> 0 /\ 2 <> 1 /\ Imm (Fin 1 :: []) <> Ref 0%nat.
Proof. exists (fun _ => (Fin (1/2) :: [])). repeat split; try lra. discriminate. Qed.

(** C104: the converted numbers are the mean and the variance of the Beta density the models evaluate *)
Theorem C104_moments_of_shapes : forall betaln a b s lnB, 0 < a -> 0 < b -> 0 < s -> betaln (Fin a) (Fin b) = Fin lnB -> beta_integral_open a b (exp lnB) ->
  exists f m v, (forall x, 0 < x < s -> betadist betaln (Fin x) (Fin a) (Fin b) (Fin s) (Fin 0) = Fin (f x)) /\
    mu_var_from_alpha_beta (Fin a) (Fin b) (Fin s) = (Fin m, Fin v) /\
    is_RInt_gen f (at_right 0) (at_left s) 1 /\ is_RInt_gen (fun x => x * f x) (at_right 0) (at_left s) m /\ is_RInt_gen (fun x => (x - m) * (x - m) * f x) (at_right 0) (at_left s) v.
Proof. exact beta_moments. Qed.
Print Assumptions C104_moments_of_shapes.
Theorem C104_shapes_of_moments : forall betaln m v s a b lnB, 0 < m < s -> 0 < v < m * (s - m) -> alpha_beta_from_mu_var (Fin m) (Fin v) (Fin s) = (Fin a, Fin b) ->
  betaln (Fin a) (Fin b) = Fin lnB -> beta_integral_open a b (exp lnB) ->
  exists f, (forall x, 0 < x < s -> betadist betaln (Fin x) (Fin a) (Fin b) (Fin s) (Fin 0) = Fin (f x)) /\
    is_RInt_gen f (at_right 0) (at_left s) 1 /\ is_RInt_gen (fun x => x * f x) (at_right 0) (at_left s) m /\ is_RInt_gen (fun x => (x - m) * (x - m) * f x) (at_right 0) (at_left s) v.
Proof. exact shapes_moments. Qed.
Print Assumptions C104_shapes_of_moments.
(** shapes 1/2 and 1 (mean 1/3, variance 4/45), where the density is unbounded *)
Example C104_case : beta_integral_open (1/2) 1 (exp (ln 2)) /\ alpha_beta_from_mu_var (Fin (1/3)) (Fin (4/45)) (Fin 1) = (Fin (1/2), Fin 1).
Proof.
  split; [rewrite exp_ln by lra; exact beta_integral_open_half|]. destruct (roundtrip_shapes (1/2) 1 1) as (m & v & E & _ & _ & E2); try lra. rewrite mu_var_fin in E by lra. injection E as <- <-.
  rewrite <- E2. f_equal; f_equal; field.
Qed.
