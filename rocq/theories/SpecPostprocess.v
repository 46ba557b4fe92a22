(** What a posterior predictive curve should be. *)
From Verif Require Export MPostprocess SpecBSplines.
From Verif Require Export Spec.
Open Scope R_scope.

(** [curve] is the density [g] on the grid [xs] rescaled so that its trapezoid integral is [total] *)
Definition rate_curve (xs : list R) (g : R -> R) (total : R) (curve : list num) : Prop :=
  exists c, curve = map (fun x => Fin (c * g x)) xs /\ trapezoid xs (map (fun x => c * g x) xs) = total /\ 0 < trapezoid xs (map g xs).
(** rate * pop_frac of draw i, each 1 when not given *)
Definition per_draw (o : option (list R)) (i : nat) : R := match o with Some l => nth i l 0 | None => 1 end.
Definition total_rate (rate frac : option (list R)) (i : nat) : R := per_draw rate i * per_draw frac i.
Definition one_per_draw (n : nat) (o : option (list R)) : Prop := match o with Some l => length l = n | None => True end.
(** the option as the program gets it *)
Definition given (o : option (list R)) : option (list num) := option_map (map Fin) o.
(** marginals of a joint density on a grid *)
Definition marginal_m (qs : list R) (J : R -> R -> R) (m : R) : R := trapezoid qs (map (J m) qs).
Definition marginal_q (ms : list R) (J : R -> R -> R) (q : R) : R := trapezoid ms (map (fun m => J m q) ms).
(** both mass curves of a draw: the marginals of J, integrating to [total] *)
Definition mass_rate_curves (mmin mmax : R) (J : R -> R -> R) (total : R) (mcurve qcurve : list num) : Prop :=
  let ms := rlinspace mmin mmax 800 in let qs := rlinspace (mmin / mmax) 1 800 in
  rate_curve ms (marginal_m qs J) total mcurve /\ rate_curve qs (marginal_q ms J) total qcurve.
(** [J] is the joint density [f], cut to zero unless the secondary mass q*m satisfies [keep] *)
Definition cut_joint (mmin mmax : R) (keep : R -> Prop) (f : R -> R -> num) (J : R -> R -> R) : Prop :=
  forall m q, mmin <= m <= mmax -> mmin / mmax <= q <= 1 -> (keep (q * m) -> f m q = Fin (J m q)) /\ (~ keep (q * m) -> J m q = 0).
(** coefficients of a log spline with n bases: any finite float32 above the most negative one *)
Definition log_coefs (n : nat) (c : list R) : Prop := length c = n /\ forall v, In v c -> - FMAX < v.
