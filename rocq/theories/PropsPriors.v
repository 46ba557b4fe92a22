(** Property theorems C18-C22, C86-C89, C92, C93 (gwinferno/preprocess/priors.py). *)
From Verif Require Import PPriorsIso PPriorsChip PPriorsCond PPriorsAligned PPriorsPush2 PPriorsMass PPriorsCond2 PDilog Spec SpecNewton.
Open Scope R_scope.

(** C18 *)
Theorem C18_aligned_density : forall q a, 0 < q <= 1 -> 0 < a ->
  exists f : R -> R,
    (forall x, chi_effective_prior_from_aligned_spins (Fin x) (Fin q) (Fin a) = Fin (f x)) /\
    (forall x, 0 <= f x) /\ (forall x, f (- x) = f x) /\ (forall x, a < Rabs x -> f x = 0) /\
    (forall x, continuous f x) /\ is_RInt f (- a) a 1.
Proof. exact aligned_density. Qed.
Print Assumptions C18_aligned_density.
Example C18_case : 0 < 1/2 <= 1 /\ 0 < 99/100. Proof. lra. Qed.

(** C86 *)
Theorem C86_aligned_is_pushforward : forall q a, 0 < q <= 1 -> 0 < a -> forall x,
  exists v, chi_effective_prior_from_aligned_spins (Fin x) (Fin q) (Fin a) = Fin v /\
  is_RInt (fun s => uniform_density (- a) a s * uniform_density (- a) a (((1 + q) * x - s) / q) * ((1 + q) / q)) (- a) a v.
Proof. exact aligned_convolution. Qed.
Print Assumptions C86_aligned_is_pushforward.
Example C86_case : uniform_density (-1) 1 (1/2) = / 2.
Proof. unfold uniform_density. rewrite !Rleb_t by lra. cbn [andb]. f_equal. lra. Qed.

(** C19: the flags are the seven case conditions evaluated at |chi_eff| *)
Theorem C19_at_most_one_case : forall q a x, 0 < q <= 1 -> 0 < a -> 0 <= x ->
  (length (filter (fun b => b)
     [iso_caseZ (Fin x); iso_caseA (Fin x) (Fin q) (Fin a); iso_caseB (Fin x) (Fin q) (Fin a); iso_caseC (Fin x) (Fin q) (Fin a);
      iso_caseD (Fin x) (Fin q) (Fin a); iso_caseE (Fin x) (Fin q) (Fin a); iso_caseF (Fin x) (Fin a)]) <= 1)%nat.
Proof. exact iso_exclusive. Qed.
Print Assumptions C19_at_most_one_case.
Theorem C19_no_case_iff_boundary : forall Di q a x, 0 < q <= 1 -> 0 < a -> 0 <= x ->
  (iso_select Di (Fin x) (Fin q) (Fin a) = None <->
   (x = a * (1 - q) / (1 + q) /\ 0 < x) \/ (x = q * a / (1 + q) /\ x < a * (1 - q) / (1 + q)) \/ x = a / (1 + q)).
Proof. exact iso_none_iff. Qed.
Print Assumptions C19_no_case_iff_boundary.
Theorem C19_even : forall n Di x q a,
  chi_effective_prior_from_isotropic_spins n Di (Fin (- x)) q a = chi_effective_prior_from_isotropic_spins n Di (Fin x) q a.
Proof. exact iso_even. Qed.
Print Assumptions C19_even.
Theorem C19_zero_outside : forall n Di x q a, 0 < q <= 1 -> 0 < a -> a <= Rabs x ->
  chi_effective_prior_from_isotropic_spins (S n) Di (Fin x) (Fin q) (Fin a) = Ok (Fin 0).
Proof. exact iso_outside. Qed.
Print Assumptions C19_zero_outside.
Theorem C19_boundary_average : forall n Di x q a u v, 0 < q <= 1 -> 0 < a ->
  iso_select Di (Fin (Rabs x)) (Fin q) (Fin a) = None ->
  chi_effective_prior_from_isotropic_spins n Di (Fin (Rabs x + / 1000000)) (Fin q) (Fin a) = Ok u ->
  chi_effective_prior_from_isotropic_spins n Di (Fin (Rabs x - / 1000000)) (Fin q) (Fin a) = Ok v ->
  chi_effective_prior_from_isotropic_spins (S n) Di (Fin x) (Fin q) (Fin a) = Ok (Fin (1 / 2) * (u + v))%num.
Proof. exact iso_boundary_average. Qed.
Print Assumptions C19_boundary_average.
(** a concrete boundary: q = 1/2, a = 1, chi = 2/3 *)
Example C19_case : (2/3 = 1 / (1 + 1/2)). Proof. field. Qed.

(** C20 *)
Theorem C20_returns_partial : forall Di q a x, 0 < q <= 1 -> 0 < a ->
  (let bs := [a * (1 - q) / (1 + q); q * a / (1 + q); a / (1 + q)] in
   forall u v, In u bs -> In v bs -> Rabs (u - v) <> / 1000000 /\ u + v <> / 1000000) ->
  exists p, forall n, chi_effective_prior_from_isotropic_spins (S (S n)) Di (Fin x) (Fin q) (Fin a) = Ok p.
Proof. exact iso_terminates. Qed.
Print Assumptions C20_returns_partial.
Theorem C20_never_returns_refuted : exists q a x, 0 < q <= 1 /\ 0 < a <= 1 /\ 0 <= x < a /\
  forall n Di, chi_effective_prior_from_isotropic_spins n Di (Fin x) (Fin q) (Fin a) = Err RecursionError.
Proof. exact iso_diverges_example. Qed.
Print Assumptions C20_never_returns_refuted.
Theorem C20_nan_never_returns_refuted : forall n Di q a,
  chi_effective_prior_from_isotropic_spins n Di NaN q a = Err RecursionError.
Proof. exact iso_nan. Qed.
Print Assumptions C20_nan_never_returns_refuted.
Example C20_case : let bs := [1 * (1 - 1) / (1 + 1); 1 * 1 / (1 + 1); 1 / (1 + 1)] in
   forall u v, In u bs -> In v bs -> Rabs (u - v) <> / 1000000 /\ u + v <> / 1000000.
Proof.
  cbn [In]. intros u v Hu Hv. destruct Hu as [<-|[<-|[<-|[]]]], Hv as [<-|[<-|[<-|[]]]]; unfold Rabs; destruct (Rcase_abs _); lra.
Qed.

(** C92 *)
Theorem C92_isotropic_is_pushforward : forall q a D Di x n, 0 < q <= 1 -> 0 < a ->
  dilogarithm D -> (forall y, Di (Fin y) = Fin (D y)) ->
  x = 0 \/ (Rabs x <> a * (1 - q) / (1 + q) /\ Rabs x <> q * a / (1 + q) /\ Rabs x <> a / (1 + q)) ->
  exists v, chi_effective_prior_from_isotropic_spins (S n) Di (Fin x) (Fin q) (Fin a) = Ok (Fin v) /\ 0 <= v /\
    newton_integral (fun s => iso_spin a s * iso_spin a (((1 + q) * x - s) / q) * ((1 + q) / q)) (- a) a v.
Proof. exact iso_pushforward_prop. Qed.
Print Assumptions C92_isotropic_is_pushforward.
Theorem C92_boundary_average : forall q a D Di x n, 0 < q <= 1 -> 0 < a ->
  dilogarithm D -> (forall y, Di (Fin y) = Fin (D y)) ->
  iso_select Di (Fin (Rabs x)) (Fin q) (Fin a) = None ->
  (forall y, y = Rabs x + / 1000000 \/ y = Rabs (Rabs x - / 1000000) ->
     y <> a * (1 - q) / (1 + q) /\ y <> q * a / (1 + q) /\ y <> a / (1 + q)) ->
  exists u v, chi_effective_prior_from_isotropic_spins (S (S n)) Di (Fin x) (Fin q) (Fin a) = Ok (Fin ((u + v) / 2)) /\
    newton_integral (fun s => iso_spin a s * iso_spin a (((1 + q) * (Rabs x + / 1000000) - s) / q) * ((1 + q) / q)) (- a) a u /\
    newton_integral (fun s => iso_spin a s * iso_spin a (((1 + q) * (Rabs x - / 1000000) - s) / q) * ((1 + q) / q)) (- a) a v.
Proof. intros q a D Di x n Hq Ha HD HDi Hn Hr. exact (iso_boundary_push q a D Di x n Hq Ha HD HDi Hn (Hr _ (or_introl eq_refl)) (Hr _ (or_intror eq_refl))). Qed.
Print Assumptions C92_boundary_average.
(** At chi_eff = q a/(1+q), which case D includes, the formula is inf - inf. *)
Theorem C92_nan_inside_refuted : forall Di n q a, / 2 < q < 1 -> 0 < a -> exists x, x = q * a / (1 + q) /\ 0 < x < a /\
  chi_effective_prior_from_isotropic_spins (S n) Di (Fin x) (Fin q) (Fin a) = Ok NaN.
Proof. exact iso_D_nan. Qed.
Print Assumptions C92_nan_inside_refuted.
(** total probability one *)
Theorem C92_isotropic_normalised : forall q a D Di, 0 < q <= 1 -> 0 < a -> dilogarithm D -> (forall y, Di (Fin y) = Fin (D y)) ->
  exists f, (forall x n, Rabs x <> a * (1 - q) / (1 + q) -> Rabs x <> q * a / (1 + q) -> Rabs x <> a / (1 + q) ->
      chi_effective_prior_from_isotropic_spins (S n) Di (Fin x) (Fin q) (Fin a) = Ok (Fin (f x))) /\ newton_integral f (- a) a 1.
Proof. exact iso_mass_one. Qed.
Print Assumptions C92_isotropic_normalised.
(** The reference: magnitude uniform on [0,A], cosine of the tilt uniform on [-1,1]. *)
Theorem C92_spin_component_density : forall A, 0 < A ->
  (forall s, 0 < Rabs s < A -> is_RInt (fun a => / A * / (2 * a)) (Rabs s) A (iso_spin A s)) /\
  (forall s, A <= Rabs s -> iso_spin A s = 0) /\ newton_integral (iso_spin A) (- A) A 1.
Proof. intros A HA. exact (conj (iso_spin_mixture A) (conj (iso_spin_out A) (iso_spin_one A HA))). Qed.
Print Assumptions C92_spin_component_density.
(** The integral used above is unique, and is the Riemann integral for continuous integrands. *)
Theorem C92_integral_well_defined : forall (f : R -> R) a b, a < b ->
  (forall I J, newton_integral f a b I -> newton_integral f a b J -> I = J) /\
  ((forall x, continuous f x) -> forall I, is_RInt f a b I -> newton_integral f a b I).
Proof. intros f a b H. exact (conj (fun I J => newton_unique f a b I J (Rlt_le _ _ H)) (fun Hc I => newton_of_RInt f a b I H Hc)). Qed.
Print Assumptions C92_integral_well_defined.
(** a dilogarithm exists *)
Example C92_dilogarithm : exists D, dilogarithm D. Proof. exists dilog. exact dilog_ok. Qed.
Example C92_case : 1/4 <> 1 * (1 - 1/2) / (1 + 1/2) /\ 1/4 <> (1/2) * 1 / (1 + 1/2) /\ 1/4 <> 1 / (1 + 1/2). Proof. lra. Qed.

(** C88 *)
Theorem C88_array_elementwise_partial : forall n Di q a chis ps,
  Forall2 (fun c p => chi_effective_prior_from_isotropic_spins n Di c q a = Ok p) chis ps -> chis <> [] ->
  iso_array n Di chis (QScalar q) a = Ok ps.
Proof. exact iso_array_scalar. Qed.
Print Assumptions C88_array_elementwise_partial.
Theorem C88_array_q_refuted : forall Di, exists chis qs ps,
  length qs = length chis /\
  Forall2 (fun cq p => forall n, chi_effective_prior_from_isotropic_spins (S (S n)) Di (fst cq) (snd cq) (Fin 1) = Ok p)
    (combine chis qs) ps /\
  forall n, iso_array (S (S n)) Di chis (QArray qs) (Fin 1) = Err ValueError.
Proof. exact iso_array_refuted. Qed.
Print Assumptions C88_array_q_refuted.
Example C88_case : forall Di, Forall2 (fun c p => chi_effective_prior_from_isotropic_spins 1 Di c (Fin 1) (Fin 1) = Ok p)
  [Fin 1; Fin 2] [Fin 0; Fin 0].
Proof. intros Di. repeat constructor; apply iso_outside; try lra; unfold Rabs; destruct (Rcase_abs _); lra. Qed.

(** C21: density on [0,a_max]; the negative half line is not excluded (refuted) *)
Theorem C21_density_partial : forall q a, 0 < q <= 1 -> 0 < a ->
  exists f : R -> R,
    (forall x, 0 <= x -> chi_p_prior_from_isotropic_spins (Fin x) (Fin q) (Fin a) = Fin (f x)) /\
    (forall x, 0 <= x -> 0 <= f x) /\ (forall x, a <= x -> f x = 0) /\
    (forall x, 0 <= x -> continuous f x) /\ is_RInt f 0 a 1.
Proof. exact chip_prior_density. Qed.
Print Assumptions C21_density_partial.
Theorem C21_negative_refuted : exists v, chi_p_prior_from_isotropic_spins (Fin (-1)) (Fin 1) (Fin 1) = Fin v /\ v < 0.
Proof. exact chip_prior_negative. Qed.
Print Assumptions C21_negative_refuted.
Example C21_case : 0 < 3/4 <= 1 /\ 0 < 99/100. Proof. lra. Qed.

(** C87 *)
Theorem C87_chip_prior_is_max_distribution : forall q a, 0 < q <= 1 -> 0 < a -> forall s, 0 <= s <= a ->
  exists f P1 P2,
    (forall x, 0 <= x -> chi_p_prior_from_isotropic_spins (Fin x) (Fin q) (Fin a) = Fin (f x)) /\
    perp_spin_cdf a s P1 /\
    perp_spin_cdf (q * (3 + 4 * q) / (4 + 3 * q) * a) (Rmin s (q * (3 + 4 * q) / (4 + 3 * q) * a)) P2 /\
    is_RInt f 0 s (P1 * P2).
Proof. exact chip_prior_is_max_density. Qed.
Print Assumptions C87_chip_prior_is_max_distribution.
Example C87_case : 0 < 1/2 <= 1 /\ 0 < 1 /\ 0 <= 1/3 <= 1. Proof. lra. Qed.

(** C22 *)
Theorem C22_exit_means_physical : forall rnd chi q amax n s' i, 0 < amax ->
  (forall k, exists u, rnd k = Fin u /\ 0 <= u < 1) ->
  loop_exit rnd (Fin chi) (Fin q) (Fin amax) (draw_spins rnd (Fin amax) n) s' -> (i < n)%nat ->
  exists a1 a2 c2, nth i (s_a1 s') NaN = Fin a1 /\ nth i (s_a2 s') NaN = Fin a2 /\ nth i (s_cost2 s') NaN = Fin c2 /\
    0 <= a1 < amax /\ 0 <= a2 < amax /\ -1 <= c2 < 1 /\
    ((0 < a1 /\ exists c1, nth i (spin_cost1 (Fin chi) (Fin q) s') NaN = Fin c1 /\ -1 <= c1 <= 1 /\ chi * (1 + q) = a1 * c1 + q * a2 * c2)
     \/ (a1 = 0 /\ nth i (spin_cost1 (Fin chi) (Fin q) s') NaN = NaN /\ chi * (1 + q) = q * a2 * c2)).
Proof. exact loop_draw. Qed.
Print Assumptions C22_exit_means_physical.
Theorem C22_exit_means_attainable : forall rnd chi q amax n s', 0 < q -> 0 < amax ->
  (forall k, exists u, rnd k = Fin u /\ 0 <= u < 1) -> (0 < n)%nat ->
  loop_exit rnd (Fin chi) (Fin q) (Fin amax) (draw_spins rnd (Fin amax) n) s' -> Rabs chi < amax.
Proof. exact loop_attainable. Qed.
Print Assumptions C22_exit_means_attainable.
Theorem C22_interpolant_density : forall kde chi q amax s m,
  max_chi_p chi q amax = Fin m -> 0 < m ->
  (forall draws w x, exists v, kde draws w (Fin x) = Fin v /\ 0 < v) ->
  exists f : R -> R,
    (forall x, chi_p_prior_given_chi_eff_q kde chi q amax s (Fin x) = Fin (f x)) /\
    (forall x, 0 <= f x) /\ (forall x, x <= 0 \/ m <= x -> f x = 0) /\ (forall x, continuous f x) /\ is_RInt f 0 m 1.
Proof. exact conditional_density. Qed.
Print Assumptions C22_interpolant_density.
(** the loop does exit: with the constant stream 1/2 and chi_eff = 0 the first draws are already physical *)
Example C22_exit_case : loop_exit (fun _ => Fin (1/2)) (Fin 0) (Fin 1) (Fin 1) (draw_spins (fun _ => Fin (1/2)) (Fin 1) 2)
  (draw_spins (fun _ => Fin (1/2)) (Fin 1) 2).
Proof.
  apply le_done. unfold draw_spins, spin_cost1, take_rnd. cbn [s_a1 s_a2 s_cost2 seq map map2 Nat.add].
  rewrite !nmul_fin, !nadd_fin, !nsub_fin, !nmul_fin, !nsub_fin, !ndiv_fin by lra. cbn [existsb]. unfold unphysical, ngt. cbn [nlt].
  rewrite !Rltb_f by lra. reflexivity.
Qed.
Example C22_max_case : max_chi_p (Fin (1/10)) (Fin 1) (Fin 1) = Fin 1.
Proof. unfold max_chi_p. cbn [nabs]. rewrite Rabs_right by lra. rewrite nadd_fin, !nmul_fin, ndiv_fin by lra. cbn [nlt]. rewrite Rltb_t by lra. reflexivity. Qed.

(** C89 *)
Theorem C89_support_contains_physical_partial : forall q a1 a2 c1 c2,
  0 < q <= 1 -> 0 <= a1 <= 1 -> 0 <= a2 <= 1 -> -1 <= c1 <= 1 -> -1 <= c2 <= 1 ->
  exists chi p m, chieff (Fin q) (Fin a1) (Fin a2) (Fin c1) (Fin c2) = Fin chi /\
    chip (Fin q) (Fin a1) (Fin a2) (Fin c1) (Fin c2) = Fin p /\
    max_chi_p (Fin chi) (Fin q) (Fin 1) = Fin m /\ 0 <= p <= m.
Proof. exact max_chi_p_unit. Qed.
Print Assumptions C89_support_contains_physical_partial.
Theorem C89_support_refuted : exists q a1 a2 c1 c2 amax chi p m, 0 < q <= 1 /\ 0 < amax <= 1 /\
    0 <= a1 <= amax /\ 0 <= a2 <= amax /\ -1 <= c1 <= 1 /\ -1 <= c2 <= 1 /\
    chieff (Fin q) (Fin a1) (Fin a2) (Fin c1) (Fin c2) = Fin chi /\
    chip (Fin q) (Fin a1) (Fin a2) (Fin c1) (Fin c2) = Fin p /\
    max_chi_p (Fin chi) (Fin q) (Fin amax) = Fin m /\ m < p.
Proof. exact max_chi_p_refuted. Qed.
Print Assumptions C89_support_refuted.
Theorem C89_support_nan_refuted : max_chi_p (Fin (6/100)) (Fin 1) (Fin (1/10)) = NaN.
Proof. exact max_chi_p_nan. Qed.
Print Assumptions C89_support_nan_refuted.
Example C89_case : 0 < 1/2 <= 1 /\ 0 <= 7/10 <= 1 /\ -1 <= -1/2 <= 1. Proof. lra. Qed.

(** C93: the stored values at the 50 interior nodes are the weighted kernel density estimate of the
    chi_p of the draws, up to one positive constant; the weight of a draw is the derivative of cos(tilt_1) with
    respect to chi_eff (the Jacobian of the change of variables). *)
Theorem C93_weighted_kde_of_physical_draws : forall kde rnd chi q amax n s m, 0 < q -> 0 < amax ->
  (forall k, exists u, rnd k = Fin u /\ 0 < u < 1) ->
  loop_exit rnd (Fin chi) (Fin q) (Fin amax) (draw_spins rnd (Fin amax) n) s ->
  max_chi_p (Fin chi) (Fin q) (Fin amax) = Fin m -> 0 < m ->
  (forall draws w x, exists v, kde draws w (Fin x) = Fin v /\ 0 < v) ->
  exists draws w N, length draws = n /\ length w = n /\ 0 < N /\
    (forall j, (j < n)%nat -> exists a1 a2 c1 c2 J,
       0 < a1 < amax /\ 0 <= a2 < amax /\ -1 <= c1 <= 1 /\ -1 <= c2 < 1 /\
       chi * (1 + q) = a1 * c1 + q * a2 * c2 /\
       nth j draws NaN = Fin (Rmax (a1 * sqrt (1 - c1 ^ 2)) ((3 + 4 * q) / (4 + 3 * q) * q * a2 * sqrt (1 - c2 ^ 2))) /\
       nth j w NaN = Fin J /\ is_derive (fun t => (t * (1 + q) - q * a2 * c2) / a1) chi J) /\
    (forall i, (i < 50)%nat -> let x := m * (5 / 100 + INR i * (90 / 100) / 49) in
       exists k, kde draws w (Fin x) = Fin k /\ chi_p_prior_given_chi_eff_q kde (Fin chi) (Fin q) (Fin amax) s (Fin x) = Fin (k / N)).
Proof. exact conditional_weighted. Qed.
Print Assumptions C93_weighted_kde_of_physical_draws.
(** the stream and loop hypotheses are met by C22_exit_case, the support by C22_max_case *)
Example C93_case : forall k : nat, exists u, (fun _ : nat => Fin (1/2)) k = Fin u /\ 0 < u < 1.
Proof. intros k. exists (1/2). split; [reflexivity|lra]. Qed.
