(** Specification vocabulary, independent of the model of the code. *)
From Coquelicot Require Export Coquelicot.
From Verif Require Export Num.

(** [p] is a probability density on [a,b]: a finite, non-negative number everywhere on the closed
    interval, with Riemann integral one. *)
Definition density_on (p : R -> num) (a b : R) : Prop :=
  exists f : R -> R,
    (forall x, a <= x <= b -> p x = Fin (f x) /\ 0 <= f x) /\ is_RInt f a b 1.

(** [p] vanishes outside [a,b]. *)
Definition zero_outside (p : R -> num) (a b : R) : Prop :=
  forall x, x < a \/ b < x -> p x = Fin 0.

(** [F] is the integral of [p] from [a]: [F x] is a number and equals the Riemann integral of the
    density from [a] to [x], for all [x] in [a,b]. *)
Definition integral_from (p F : R -> num) (a b : R) : Prop :=
  exists f : R -> R,
    (forall x, a <= x <= b -> p x = Fin (f x)) /\
    (forall x, a <= x <= b -> exists v, F x = Fin v /\ is_RInt f a x v).

(** Sum of a list of reals; trapezoid sum of samples [ys] on grid [xs]. *)
Fixpoint Rlsum (l : list R) : R := match l with [] => 0 | x :: r => x + Rlsum r end.
Fixpoint trapezoid (xs ys : list R) : R :=
  match xs, ys with
  | x0 :: ((x1 :: _) as xs'), y0 :: ((y1 :: _) as ys') =>
      (x1 - x0) * (y0 + y1) / 2 + trapezoid xs' ys'
  | _, _ => 0
  end.

(** Strictly increasing list. *)
Fixpoint increasing (l : list R) : Prop :=
  match l with a :: ((b :: _) as r) => a < b /\ increasing r | _ => True end.

(** [p x y] is a joint density over {a < x <= b, lo x <= y <= hi x}: finite and non-negative there,
    with iterated integral one; [g] is the marginal density of [x]. *)
Definition joint_density_on (p : R -> R -> num) (a b : R) (lo hi : R -> R) (g : R -> R) : Prop :=
  exists f : R -> R -> R,
    (forall x y, a < x <= b -> lo x <= y <= hi x -> p x y = Fin (f x y) /\ 0 <= f x y) /\
    (forall x, a < x <= b -> is_RInt (f x) (lo x) (hi x) (g x)) /\
    is_RInt g a b 1.

(** [B] is the value of Euler's Beta integral for shapes [a], [b]. *)
Definition beta_integral (a b B : R) : Prop :=
  is_RInt (fun t => Rpower t (a - 1) * Rpower (1 - t) (b - 1)) 0 1 B /\ 0 < B.

(** Textbook normalised power law, and textbook logistic step of steepness [s] at [c]. *)
Definition logistic_up (s c x : R) : R := / (1 + exp (- s * (x - c))).
Definition logistic_down (s c x : R) : R := / (1 + exp (s * (x - c))).

(** [p] is, on [a,b], a positive constant times the textbook shape [s]. *)
Definition proportional_on (p : R -> num) (s : R -> R) (a b : R) : Prop :=
  exists c, 0 < c /\ forall x, a <= x <= b -> p x = Fin (c * s x).

(** Value at [x] of the polynomial with coefficients [p], constant term first. *)
Fixpoint peval (p : list R) (x : R) : R := match p with [] => 0 | a :: r => a + x * peval r x end.

(** Density of the uniform distribution on [a,b]. *)
Definition uniform_density (a b x : R) : R := if (Rleb a x && Rleb x b)%bool then / (b - a) else 0.

(** [P] is the probability that (magnitude * sin tilt) <= s for a magnitude uniform on [0,c] and an
    isotropic tilt: the average over the magnitude u of P(sin tilt <= s/u) = 1 - sqrt(1 - min(1,s/u)^2). *)
Definition perp_spin_cdf (c s P : R) : Prop :=
  is_RInt (fun u => (1 - sqrt (1 - (Rmin 1 (s / u)) ^ 2)) / c) 0 c P.

(** Mean, sum of squares and Kish effective sample size of a list of weights. *)
Definition mean (ws : list R) : R := Rlsum ws / INR (length ws).
Definition sumsq (ws : list R) : R := Rlsum (map (fun w => w * w) ws).
Definition ess (ws : list R) : R := Rlsum ws ^ 2 / sumsq ws.

(** Monte-Carlo estimate mu of an integral from N trials of which [ws] are the non-zero contributions,
    the sampling variance of that estimate, and the effective sample size mu^2 / variance (Farr 2019). *)
Definition mc_mu (N : R) (ws : list R) : R := Rlsum ws / N.
Definition mc_var (N : R) (ws : list R) : R := sumsq ws / N ^ 2 - mc_mu N ws ^ 2 / N.
Definition mc_neff (N : R) (ws : list R) : R := mc_mu N ws ^ 2 / mc_var N ws.

(** All entries of the list are non-negative. *)
Definition nonneg_list (ws : list R) : Prop := Forall (fun w => 0 <= w) ws.
