(** The Beta curves at alpha <= 1, the B-spline spin curves, the mass curves and the rate evolution curves. *)
From Verif Require Export PPostprocess2.
From Verif Require Import ArrFacts NumFacts PDistributions PParametric PBSplineMake PBSplineGauge PBSplines PSplinePert PSplinePert2 PNumpyroDist PConstruct Calc.
From Verif Require Import Spec.
Open Scope R_scope.

Lemma lin_head a b : a < b -> exists x1 xs, rlinspace a b 800 = a :: x1 :: xs /\ a < x1 < b.
Proof.
  intros H. pose proof (rlinspace_length a b 800) as L. pose proof (rlinspace_first a b 800 ltac:(apply (Nat.leb_le 1 800); reflexivity)) as F.
  assert (LT : (1 < 800)%nat) by (apply (Nat.ltb_lt 1 800); reflexivity). pose proof (rlinspace_increasing a b 800 H) as I.
  assert (B : nth 1 (rlinspace a b 800) 0 < nth (800 - 1) (rlinspace a b 800) 0).
  { apply increasing_lt; [exact I|apply (Nat.ltb_lt 1 (800 - 1)); reflexivity|rewrite L; apply (Nat.ltb_lt (800 - 1) 800); reflexivity]. }
  rewrite rlinspace_last in B by apply two_eight.
  destruct (rlinspace a b 800) as [|x0 [|x1 xs]]; cbn [length] in L; [exfalso; lia|exfalso; lia|]. cbn [nth] in F, B. subst x0. exists x1, xs. split; auto. destruct I as [I _]. split; auto.
Qed.
Lemma nadd_pinf x : nadd PInf x = PInf \/ nadd PInf x = NaN.
Proof. destruct x; cbn; auto. Qed.
Lemma trapz_inf y1 ys x0 x1 xs : x0 < x1 -> let t := ntrapz (PInf :: Fin y1 :: ys) (Fin x0 :: Fin x1 :: xs) in t = PInf \/ t = NaN.
Proof.
  intros H. cbv zeta. unfold ntrapz. change (ntrapz_terms (PInf :: Fin y1 :: ys) (Fin x0 :: Fin x1 :: xs)) with (nmul (nsub (Fin x1) (Fin x0)) (nadd (Fin y1) PInf) :: ntrapz_terms (Fin y1 :: ys) (Fin x1 :: xs)). generalize (ntrapz_terms (Fin y1 :: ys) (Fin x1 :: xs)). intros rest. rewrite nsub_fin. change (nmul (Fin (x1 - x0)) (nadd (Fin y1) PInf)) with (sinf (x1 - x0)).
  assert (E : sinf (x1 - x0) = PInf) by (unfold sinf; rewrite (Rltb_t 0) by lra; auto). rewrite E.
  assert (S : nsum (PInf :: rest) = PInf \/ nsum (PInf :: rest) = NaN) by apply nadd_pinf.
  destruct S as [-> | ->]; cbn; [left; unfold sinf; rewrite Rltb_t by lra; auto|auto].
Qed.

(** ** One-dimensional log splines *)
Definition plain_opts (o : opts) : Prop := o_range o = None /\ o_degree o = None /\ o_knots o = None /\ o_interior o = None.
Lemma m1d_log basis s o n a b xs inj : dflt basis (o_basis o) = s -> logy s = true -> plain_opts o -> dflt (default_normalize s) (o_normalize o) = true -> (4 <= n)%nat ->
  valid_range s a b -> wide_range s n 4 a b -> (forall x, In x xs -> a <= x <= b) ->
  exists m, make_m1d basis (Fin a, Fin b) o n (map Fin xs) inj = Ok m /\
    forall c, length c = n -> (forall v, In v c -> - FMAX < v) -> exists g, m1d_call m (map Fin c) true = Ok (map (fun x => Fin (g x)) xs) /\
      forall x, a <= x <= b -> 0 < g x /\ density_at s (Fin a, Fin b) no_opts n (map Fin c) (Fin x) (Fin (g x)).
Proof.
  intros HB HS (O1 & O2 & O3 & O4) ON Hn HV HW HX. destruct (make_default s n 4 a b true ltac:(lia) HV) as (sp & ES & _).
  destruct (make_m1d basis (Fin a, Fin b) o n (map Fin xs) inj) as [m|e] eqn:EM.
  2:{ exfalso. unfold make_m1d in EM. rewrite O1, O2, O3, O4, HB, ON in EM. cbn [dflt Nat.add] in EM. rewrite ES in EM. discriminate. }
  exists m. split; auto. intros c HC HF. destruct (log_unit s n 4 a b HS ltac:(lia) HV HW c HC HF) as (sp' & g & ES' & _ & EV & P & _). rewrite ES in ES'. injection ES' as <-.
  destruct (m1d_points _ _ _ _ _ _ _ (map Fin c) EM ltac:(lia) ltac:(rewrite map_length; auto)) as (sp'' & V & ES'' & HV' & HP). rewrite O1, O2, O3, O4, HB, ON in ES''. cbn [dflt Nat.add fst snd] in ES''. rewrite ES in ES''. injection ES'' as <-.
  exists g. assert (VG : forall x, V (Fin x) = Fin (g x)).
  { intros x. specialize (EV (x :: nil)). cbn [map] in EV. rewrite HV' in EV. cbn [map] in EV. injection EV. auto. }
  split.
  - rewrite HP. cbn [samples]. apply (f_equal Ok). rewrite map_map. apply map_ext_in. intros x Hx. rewrite O1. cbn [dflt fst snd]. replace (in_range _ _ _) with true; [apply VG|]. symmetry. apply in_range_inside. exists x. auto.
  - intros x Hx. split; [apply P; auto|]. exists sp, a, b. split; auto. split; [destruct s; try discriminate HS; exact ES|]. split; [intros _; rewrite HV'; cbn [map]; rewrite VG; auto|]. intros N. exfalso. apply N. exists x. auto.
Qed.

(** ** B-spline spins *)
Lemma spins_iid n_a n_t ds rate frac : (4 <= n_a)%nat -> (4 <= n_t)%nat -> wide_range KLogY n_a 4 0 1 -> wide_range KLogY n_t 4 (-1) 1 ->
  one_per_draw (length ds) rate -> one_per_draw (length ds) frac -> (forall a t, In (a, t) ds -> log_coefs n_a a /\ log_coefs n_t t) ->
  let aa := rlinspace 0 1 800 in let cc := rlinspace (-1) 1 800 in
  exists ac tc, calculate_bspline_spin_ppds_iid n_a n_t (map (fun d => (map Fin (fst d), map Fin (snd d))) ds) (given rate) (given frac) = Ok (ac, map Fin aa, tc, map Fin cc) /\
    length ac = length ds /\ length tc = length ds /\ forall i a t, nth_error ds i = Some (a, t) -> exists g k,
      (forall x, 0 <= x <= 1 -> density_at KLogY (Fin 0, Fin 1) no_opts n_a (map Fin a) (Fin x) (Fin (g x))) /\
      (forall x, -1 <= x <= 1 -> density_at KLogY (Fin (-1), Fin 1) no_opts n_t (map Fin t) (Fin x) (Fin (k x))) /\
      rate_curve aa g (total_rate rate frac i) (nth i ac []) /\ rate_curve cc k (total_rate rate frac i) (nth i tc []).
Proof.
  intros NA NT WA WT HR HF HD aa cc. unfold calculate_bspline_spin_ppds_iid. cbv zeta. unfold PPD_POINTS. rewrite (nlinspace_fin 0 1 800), (nlinspace_fin (-1) 1 800) by apply two_eight. fold aa cc.
  set (o := Opts _ _ _ _ _ _).
  destruct (m1d_log KLogY KLogY o n_a 0 1 aa (map Fin aa) eq_refl eq_refl ltac:(repeat split) eq_refl NA ltac:(split; [lra|discriminate]) WA) as (ma & EA & CA); [intros x Hx; apply rlinspace_range in Hx; lra|].
  destruct (m1d_log KLogY KLogY o n_t (-1) 1 cc (map Fin cc) eq_refl eq_refl ltac:(repeat split) eq_refl NT ltac:(split; [lra|discriminate]) WT) as (mt & ET & CT); [intros x Hx; apply rlinspace_range in Hx; lra|].
  unfold iid_spin_magnitudes, iid_spin_tilts, spin_magnitude, spin_tilt. rewrite EA, ET. cbn [rbind fst snd].
  set (h := fun d : list R * list R => _). set (f := fun d r q => _).
  destruct (all_ok h f (fun d tot out => exists g k, (forall x, 0 <= x <= 1 -> density_at KLogY (Fin 0, Fin 1) no_opts n_a (map Fin (fst d)) (Fin x) (Fin (g x))) /\
      (forall x, -1 <= x <= 1 -> density_at KLogY (Fin (-1), Fin 1) no_opts n_t (map Fin (snd d)) (Fin x) (Fin (k x))) /\
      rate_curve aa g tot (fst out) /\ rate_curve cc k tot (snd out)) ds rate frac HR HF) as (os & E & L & K).
  - intros [a t] r q Hd. destruct (HD _ _ Hd) as ((La & Ba) & (Lt & Bt)). destruct (CA a La Ba) as (g & Eg & Pg). destruct (CT t Lt Bt) as (k & Ek & Pk).
    unfold f, h. cbn [fst snd]. rewrite Eg, Ek. cbn [rbind]. eexists. split; [reflexivity|]. exists g, k. cbn [fst snd]. split; [apply Pg|]. split; [apply Pk|].
    split; apply spin_curve_ok; apply lin_pos; try lra; intros; [apply Pg|apply Pk]; auto.
  - rewrite E. cbn [rbind]. exists (map fst os), (map snd os). split; auto. rewrite !map_length. split; auto. split; auto. intros i a t Hi. destruct (K i _ Hi) as (out & Eo & Po).
    rewrite (nth_some _ _ _ _ (map_nth_error fst _ _ Eo)), (nth_some _ _ _ _ (map_nth_error snd _ _ Eo)). exact Po.
Qed.
Lemma spins_independent n1 n2 m1 m2 ds rate frac : (4 <= n1)%nat -> (4 <= n2)%nat -> (4 <= m1)%nat -> (4 <= m2)%nat ->
  wide_range KLogY n1 4 0 1 -> wide_range KLogY n2 4 0 1 -> wide_range KLogY m1 4 (-1) 1 -> wide_range KLogY m2 4 (-1) 1 ->
  one_per_draw (length ds) rate -> one_per_draw (length ds) frac ->
  (forall a1 t1 a2 t2, In (a1, t1, a2, t2) ds -> log_coefs n1 a1 /\ log_coefs m1 t1 /\ log_coefs n2 a2 /\ log_coefs m2 t2) ->
  let aa := rlinspace 0 1 800 in let cc := rlinspace (-1) 1 800 in
  exists ac1 ac2 tc1 tc2, calculate_bspline_spin_ppds_independent n1 n2 m1 m2
      (map (fun '(a1, t1, a2, t2) => (map Fin a1, map Fin t1, map Fin a2, map Fin t2)) ds) (given rate) (given frac) = Ok (ac1, ac2, map Fin aa, tc1, tc2, map Fin cc) /\
    length ac1 = length ds /\ length ac2 = length ds /\ length tc1 = length ds /\ length tc2 = length ds /\ forall i a1 t1 a2 t2, nth_error ds i = Some (a1, t1, a2, t2) -> exists g1 g2 k1 k2,
      (forall x, 0 <= x <= 1 -> density_at KLogY (Fin 0, Fin 1) no_opts n1 (map Fin a1) (Fin x) (Fin (g1 x)) /\ density_at KLogY (Fin 0, Fin 1) no_opts n2 (map Fin a2) (Fin x) (Fin (g2 x))) /\
      (forall x, -1 <= x <= 1 -> density_at KLogY (Fin (-1), Fin 1) no_opts m1 (map Fin t1) (Fin x) (Fin (k1 x)) /\ density_at KLogY (Fin (-1), Fin 1) no_opts m2 (map Fin t2) (Fin x) (Fin (k2 x))) /\
      rate_curve aa g1 (total_rate rate frac i) (nth i ac1 []) /\ rate_curve aa g2 (total_rate rate frac i) (nth i ac2 []) /\
      rate_curve cc k1 (total_rate rate frac i) (nth i tc1 []) /\ rate_curve cc k2 (total_rate rate frac i) (nth i tc2 []).
Proof.
  intros N1 N2 M1 M2 W1 W2 X1 X2 HR HF HD aa cc. unfold calculate_bspline_spin_ppds_independent. cbv zeta. unfold PPD_POINTS. rewrite (nlinspace_fin 0 1 800), (nlinspace_fin (-1) 1 800) by apply two_eight. fold aa cc.
  set (o := Opts _ _ _ _ _ _).
  assert (RA : forall x, In x aa -> 0 <= x <= 1) by (intros x Hx; apply rlinspace_range in Hx; lra). assert (RC : forall x, In x cc -> -1 <= x <= 1) by (intros x Hx; apply rlinspace_range in Hx; lra).
  destruct (m1d_log KLogY KLogY o n1 0 1 aa (map Fin aa) eq_refl eq_refl ltac:(repeat split) eq_refl N1 ltac:(split; [lra|discriminate]) W1 RA) as (ma1 & EA1 & CA1).
  destruct (m1d_log KLogY KLogY o n2 0 1 aa (map Fin aa) eq_refl eq_refl ltac:(repeat split) eq_refl N2 ltac:(split; [lra|discriminate]) W2 RA) as (ma2 & EA2 & CA2).
  destruct (m1d_log KLogY KLogY o m1 (-1) 1 cc (map Fin cc) eq_refl eq_refl ltac:(repeat split) eq_refl M1 ltac:(split; [lra|discriminate]) X1 RC) as (mt1 & ET1 & CT1).
  destruct (m1d_log KLogY KLogY o m2 (-1) 1 cc (map Fin cc) eq_refl eq_refl ltac:(repeat split) eq_refl M2 ltac:(split; [lra|discriminate]) X2 RC) as (mt2 & ET2 & CT2).
  unfold independent_spin_magnitudes, independent_spin_tilts, spin_magnitude, spin_tilt. rewrite EA1, EA2, ET1, ET2. cbn [rbind fst snd].
  match goal with |- context [all_draws ?ff (map ?hh ds) _ _] => set (h := hh); set (f := ff) end.
  destruct (all_ok h f (fun d tot out => let '(a1, t1, a2, t2) := d in let '(P1, Q1, P2, Q2) := out in exists g1 g2 k1 k2,
      (forall x, 0 <= x <= 1 -> density_at KLogY (Fin 0, Fin 1) no_opts n1 (map Fin a1) (Fin x) (Fin (g1 x)) /\ density_at KLogY (Fin 0, Fin 1) no_opts n2 (map Fin a2) (Fin x) (Fin (g2 x))) /\
      (forall x, -1 <= x <= 1 -> density_at KLogY (Fin (-1), Fin 1) no_opts m1 (map Fin t1) (Fin x) (Fin (k1 x)) /\ density_at KLogY (Fin (-1), Fin 1) no_opts m2 (map Fin t2) (Fin x) (Fin (k2 x))) /\
      rate_curve aa g1 tot P1 /\ rate_curve aa g2 tot P2 /\ rate_curve cc k1 tot Q1 /\ rate_curve cc k2 tot Q2) ds rate frac HR HF) as (os & E & L & K).
  - intros [[[a1 t1] a2] t2] r q Hd. destruct (HD _ _ _ _ Hd) as ((La1 & Ba1) & (Lt1 & Bt1) & (La2 & Ba2) & (Lt2 & Bt2)).
    destruct (CA1 a1 La1 Ba1) as (g1 & Eg1 & Pg1). destruct (CA2 a2 La2 Ba2) as (g2 & Eg2 & Pg2). destruct (CT1 t1 Lt1 Bt1) as (k1 & Ek1 & Pk1). destruct (CT2 t2 Lt2 Bt2) as (k2 & Ek2 & Pk2).
    unfold f, h. rewrite Eg1, Ek1, Eg2, Ek2. cbn [rbind]. eexists. split; [reflexivity|]. exists g1, g2, k1, k2.
    split; [intros; split; [apply Pg1|apply Pg2]; auto|]. split; [intros; split; [apply Pk1|apply Pk2]; auto|].
    repeat split; apply spin_curve_ok; apply lin_pos; try lra; intros; [apply Pg1|apply Pg2|apply Pk1|apply Pk2]; auto.
  - rewrite E. cbn [rbind]. do 4 eexists. split; [reflexivity|]. rewrite !map_length. do 4 (split; [exact L|]). intros i a1 t1 a2 t2 Hi. destruct (K i _ Hi) as ([[[P1 Q1] P2] Q2] & Eo & Po).
    rewrite (nth_some _ _ _ _ (map_nth_error (fun o => fst (fst (fst o))) _ _ Eo)), (nth_some _ _ _ _ (map_nth_error (fun o => snd (fst o)) _ _ Eo)),
      (nth_some _ _ _ _ (map_nth_error (fun o => snd (fst (fst o))) _ _ Eo)), (nth_some _ _ _ _ (map_nth_error snd _ _ Eo)). exact Po.
Qed.
