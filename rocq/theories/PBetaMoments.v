(** Mean and variance of the Beta density, by integration by parts. *)
From Verif Require Export PParametric2 PConversions.
Open Scope R_scope.
Definition bp (a b t : R) : R := Rpower t (a - 1) * Rpower (1 - t) (b - 1).
Definition bF (a b t : R) : R := Rpower t a * Rpower (1 - t) b.

Lemma gen_ext (s : R) (f g : R -> R) (l : R) : 0 < s -> (forall x, 0 < x < s -> f x = g x) ->
  is_RInt_gen f (at_right 0) (at_left s) l -> is_RInt_gen g (at_right 0) (at_left s) l.
Proof.
  intros Hs H. apply is_RInt_gen_ext. eapply filter_imp; [|apply (open_pair s Hs)].
  intros [u v] (H1 & H2 & H3) x Hx. cbn [fst snd] in *. rewrite Rmin_left, Rmax_right in Hx by lra. apply H. lra.
Qed.
Lemma gen_eq (s : R) (f : R -> R) (l l' : R) : is_RInt_gen f (at_right 0) (at_left s) l -> l = l' -> is_RInt_gen f (at_right 0) (at_left s) l'.
Proof. intros H <-. exact H. Qed.
(** a linear combination of two improper integrals *)
Lemma gen_lin (s : R) (f g : R -> R) (k m lf lg : R) :
  is_RInt_gen f (at_right 0) (at_left s) lf -> is_RInt_gen g (at_right 0) (at_left s) lg ->
  is_RInt_gen (fun x => k * f x + m * g x) (at_right 0) (at_left s) (k * lf + m * lg).
Proof.
  intros Hf Hg. apply (is_RInt_gen_plus (fun x => k * f x) (fun x => m * g x)); [apply (is_RInt_gen_scal f k lf Hf)|apply (is_RInt_gen_scal g m lg Hg)].
Qed.
Lemma Rpower_small e a : 0 < e -> 0 < a -> forall t, 0 < t < Rpower e (/ a) -> Rpower t a < e.
Proof.
  intros He Ha t Ht. assert (E : Rpower (Rpower e (/ a)) a = e) by (rewrite Rpower_mult, Rinv_l, Rpower_1 by lra; reflexivity).
  rewrite <- E. unfold Rpower at 1 2. apply exp_increasing. apply Rmult_lt_compat_l; auto. apply ln_increasing; lra.
Qed.
Lemma Rpower_le_1 t b : 0 < t < 1 -> 0 < b -> Rpower t b <= 1.
Proof.
  intros Ht Hb. rewrite <- exp_0. unfold Rpower. assert (ln t < 0) by (rewrite <- ln_1; apply ln_increasing; lra).
  destruct (Req_dec (b * ln t) 0) as [E|E]; [rewrite E; lra|]. left. apply exp_increasing. nra.
Qed.
Lemma bF_left a b : 0 < a -> 0 < b -> filterlim (bF a b) (at_right 0) (locally 0).
Proof.
  intros Ha Hb P [e He]. pose proof (cond_pos e). assert (P1 : 0 < Rmin (1 / 2) (Rpower e (/ a))) by (apply Rmin_glb_lt; [lra|apply Rpower_pos]).
  exists (mkposreal _ P1). intros y Hy Hy0. change (Rabs (y - 0) < Rmin (1/2) (Rpower e (/ a))) in Hy. rewrite Rminus_0_r, Rabs_pos_eq in Hy by lra.
  pose proof (Rmin_l (1/2) (Rpower e (/ a))). pose proof (Rmin_r (1/2) (Rpower e (/ a))). apply He. change (Rabs (bF a b y - 0) < e).
  unfold bF. pose proof (Rpower_pos y a). pose proof (Rpower_pos (1 - y) b). rewrite Rminus_0_r, Rabs_pos_eq by nra.
  pose proof (Rpower_small e a H Ha y ltac:(lra)). pose proof (Rpower_le_1 (1 - y) b ltac:(lra) Hb). nra.
Qed.
Lemma bF_right a b : 0 < a -> 0 < b -> filterlim (bF a b) (at_left 1) (locally 0).
Proof.
  intros Ha Hb P [e He]. pose proof (cond_pos e). assert (P1 : 0 < Rmin (1 / 2) (Rpower e (/ b))) by (apply Rmin_glb_lt; [lra|apply Rpower_pos]).
  exists (mkposreal _ P1). intros y Hy Hy0. change (Rabs (y - 1) < Rmin (1/2) (Rpower e (/ b))) in Hy. apply Rabs_lt_between in Hy.
  pose proof (Rmin_l (1/2) (Rpower e (/ b))). pose proof (Rmin_r (1/2) (Rpower e (/ b))). apply He. change (Rabs (bF a b y - 0) < e).
  unfold bF. pose proof (Rpower_pos y a). pose proof (Rpower_pos (1 - y) b). rewrite Rminus_0_r, Rabs_pos_eq by nra.
  pose proof (Rpower_small e b H Hb (1 - y) ltac:(lra)). pose proof (Rpower_le_1 y a ltac:(lra) Ha). nra.
Qed.
Lemma bF_deriv a b t : 0 < t < 1 -> is_derive (bF a b) t (a * bp a b t - (a + b) * (t * bp a b t)).
Proof.
  intros Ht. unfold bF, bp, Rpower. auto_derive; [lra|].
  replace (a * ln t) with ((a - 1) * ln t + ln t) by ring. replace (b * ln (1 + - t)) with ((b - 1) * ln (1 - t) + ln (1 - t)) by (unfold Rminus; ring).
  rewrite !exp_plus, !exp_ln by lra. unfold Rminus. field. lra.
Qed.
Lemma by_parts a b : 0 < a -> 0 < b -> is_RInt_gen (fun t => a * bp a b t - (a + b) * (t * bp a b t)) (at_right 0) (at_left 1) 0.
Proof.
  intros Ha Hb. assert (D : forall t, 0 < t < 1 -> Derive (bF a b) t = a * bp a b t - (a + b) * (t * bp a b t)) by (intros; apply is_derive_unique, bF_deriv; auto).
  apply (gen_ext 1 (Derive (bF a b))); [lra|auto|]. apply (gen_eq 1 _ (0 - 0)); [|ring]. apply is_RInt_gen_Derive; [| |apply bF_left; auto|apply bF_right; auto].
  - eapply filter_imp; [|apply (open_pair 1); lra]. intros [u v] (H1 & H2 & H3) x Hx. cbn [fst snd] in *. rewrite Rmin_left, Rmax_right in Hx by lra. eexists. apply bF_deriv. lra.
  - eapply filter_imp; [|apply (open_pair 1); lra]. intros [u v] (H1 & H2 & H3) x Hx. cbn [fst snd] in *. rewrite Rmin_left, Rmax_right in Hx by lra.
    apply (continuous_ext_loc _ (fun t => a * bp a b t - (a + b) * (t * bp a b t))).
    + assert (P1 : 0 < Rmin x (1 - x)) by (apply Rmin_glb_lt; lra). exists (mkposreal _ P1). intros y Hy. change (Rabs (y - x) < Rmin x (1 - x)) in Hy. apply Rabs_lt_between in Hy.
      pose proof (Rmin_l x (1 - x)). pose proof (Rmin_r x (1 - x)). symmetry. apply D. lra.
    + apply ex_derive_cont. unfold bp, Rpower. auto_derive. lra.
Qed.
Lemma first_moment a b B : 0 < a -> 0 < b -> is_RInt_gen (bp a b) (at_right 0) (at_left 1) B -> is_RInt_gen (bp (a + 1) b) (at_right 0) (at_left 1) (B * (a / (a + b))).
Proof.
  intros Ha Hb H. apply (gen_ext 1 (fun t => a / (a + b) * bp a b t + - / (a + b) * (a * bp a b t - (a + b) * (t * bp a b t)))); [lra| |].
  - intros x Hx. replace (bp (a + 1) b x) with (x * bp a b x); [field; lra|]. unfold bp. replace (a + 1 - 1) with (1 + (a - 1)) by ring. rewrite Rpower_plus, Rpower_1 by lra. ring.
  - eapply gen_eq; [apply gen_lin; [exact H|apply by_parts; auto]|]. field. lra.
Qed.
Lemma raw_moments a b B : 0 < a -> 0 < b -> is_RInt_gen (bp a b) (at_right 0) (at_left 1) B ->
  is_RInt_gen (fun t => t * bp a b t) (at_right 0) (at_left 1) (B * (a / (a + b))) /\
  is_RInt_gen (fun t => t * t * bp a b t) (at_right 0) (at_left 1) (B * (a / (a + b)) * ((a + 1) / (a + b + 1))).
Proof.
  intros Ha Hb H. pose proof (first_moment a b B Ha Hb H) as H1. pose proof (first_moment (a + 1) b _ ltac:(lra) Hb H1) as H2.
  assert (S : forall a x, 0 < x < 1 -> bp (a + 1) b x = x * bp a b x) by (intros a' x Hx; unfold bp; replace (a' + 1 - 1) with (1 + (a' - 1)) by ring; rewrite Rpower_plus, Rpower_1 by lra; ring).
  split.
  - apply (gen_ext 1 (bp (a + 1) b)); [lra|intros; apply S; auto|exact H1].
  - apply (gen_ext 1 (bp (a + 1 + 1) b)); [lra|intros; rewrite !S by auto; ring|]. eapply gen_eq; [exact H2|]. do 2 f_equal. ring.
Qed.
Lemma scaled_moment (k : nat) a b s B M : 0 < s -> 0 < B -> is_RInt_gen (fun t => t ^ k * bp a b t) (at_right 0) (at_left 1) M ->
  is_RInt_gen (fun x => x ^ k * beta_density a b s B x) (at_right 0) (at_left s) (s ^ k * M / B).
Proof.
  intros Hs HB H. apply (gen_scale _ s) in H; auto.
  apply (gen_ext s (fun x => (s ^ k / B) * (/ s * ((x / s) ^ k * bp a b (x / s))) + 0 * (/ s * ((x / s) ^ k * bp a b (x / s))))); auto.
  - intros x Hx. rewrite beta_density_scaled by auto. fold (bp a b (x / s)). replace ((x / s) ^ k) with (x ^ k * / s ^ k) by (unfold Rdiv; rewrite Rpow_mult_distr, pow_inv; reflexivity). assert (s ^ k <> 0) by (apply pow_nonzero; lra). field. lra.
  - eapply gen_eq; [apply gen_lin; exact H|]. field. lra.
Qed.
Lemma beta_moments betaln a b s lnB : 0 < a -> 0 < b -> 0 < s -> betaln (Fin a) (Fin b) = Fin lnB -> beta_integral_open a b (exp lnB) ->
  exists f m v, (forall x, 0 < x < s -> betadist betaln (Fin x) (Fin a) (Fin b) (Fin s) (Fin 0) = Fin (f x)) /\
    mu_var_from_alpha_beta (Fin a) (Fin b) (Fin s) = (Fin m, Fin v) /\
    is_RInt_gen f (at_right 0) (at_left s) 1 /\ is_RInt_gen (fun x => x * f x) (at_right 0) (at_left s) m /\ is_RInt_gen (fun x => (x - m) * (x - m) * f x) (at_right 0) (at_left s) v.
Proof.
  intros Ha Hb Hs Hl [HI HB]. set (B := exp lnB) in *. change (is_RInt_gen (bp a b) (at_right 0) (at_left 1) B) in HI.
  destruct (raw_moments a b B Ha Hb HI) as [M1 M2].
  assert (K0 : is_RInt_gen (beta_density a b s B) (at_right 0) (at_left s) 1).
  { apply (gen_ext s (fun x => x ^ 0 * beta_density a b s B x)); auto; [intros; cbn [pow]; ring|]. eapply gen_eq; [apply (scaled_moment 0 a b s B B); auto|cbn [pow]; field; lra].
    apply (gen_ext 1 (bp a b)); auto; [lra|intros; cbn [pow]; ring]. }
  assert (K1 : is_RInt_gen (fun x => x * beta_density a b s B x) (at_right 0) (at_left s) (s * (a / (a + b)))).
  { apply (gen_ext s (fun x => x ^ 1 * beta_density a b s B x)); auto; [intros; cbn [pow]; ring|]. eapply gen_eq; [apply (scaled_moment 1 a b s B (B * (a / (a + b)))); auto|cbn [pow]; field; lra].
    eapply gen_ext; [| |exact M1]; [lra|intros; cbn [pow]; ring]. }
  assert (K2 : is_RInt_gen (fun x => x * x * beta_density a b s B x) (at_right 0) (at_left s) (s * s * (a / (a + b) * ((a + 1) / (a + b + 1))))).
  { apply (gen_ext s (fun x => x ^ 2 * beta_density a b s B x)); auto; [intros; cbn [pow]; ring|]. eapply gen_eq; [apply (scaled_moment 2 a b s B (B * (a / (a + b)) * ((a + 1) / (a + b + 1)))); auto|cbn [pow]; field; lra].
    eapply gen_ext; [| |exact M2]; [lra|intros; cbn [pow]; ring]. }
  rewrite mu_var_fin by auto. exists (beta_density a b s B). do 2 eexists. split; [intros x Hx; rewrite (betadist_in betaln x a b s lnB) by auto; reflexivity|]. split; [reflexivity|]. split; auto. split.
  - eapply gen_eq; [exact K1|]. field. lra.
  - match goal with |- is_RInt_gen (fun x => (x - ?m) * (x - ?m) * _) _ _ _ => set (mu := m) end.
    apply (gen_ext s (fun x => 1 * (x * x * beta_density a b s B x) + 1 * (-2 * mu * (x * beta_density a b s B x) + mu * mu * beta_density a b s B x))); auto; [intros; ring|].
    eapply gen_eq; [apply gen_lin; [exact K2|apply gen_lin; [exact K1|exact K0]]|]. unfold mu. field. lra.
Qed.
Lemma shapes_moments betaln m v s a b lnB : 0 < m < s -> 0 < v < m * (s - m) -> alpha_beta_from_mu_var (Fin m) (Fin v) (Fin s) = (Fin a, Fin b) ->
  betaln (Fin a) (Fin b) = Fin lnB -> beta_integral_open a b (exp lnB) ->
  exists f, (forall x, 0 < x < s -> betadist betaln (Fin x) (Fin a) (Fin b) (Fin s) (Fin 0) = Fin (f x)) /\
    is_RInt_gen f (at_right 0) (at_left s) 1 /\ is_RInt_gen (fun x => x * f x) (at_right 0) (at_left s) m /\ is_RInt_gen (fun x => (x - m) * (x - m) * f x) (at_right 0) (at_left s) v.
Proof.
  intros Hm Hv E Hl HB. destruct (roundtrip_moments m v s Hm Hv) as (a' & b' & E' & Ha & Hb & M). rewrite E in E'. injection E' as <- <-.
  destruct (beta_moments betaln a b s lnB Ha Hb ltac:(lra) Hl HB) as (f & m' & v' & F1 & F2 & F3 & F4 & F5). rewrite M in F2. injection F2 as <- <-. exists f. auto.
Qed.
