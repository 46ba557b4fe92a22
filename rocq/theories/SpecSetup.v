(** Vocabulary for the model set-up helpers and the example scripts. *)
From Verif Require Export MSetup SpecBSplines SpecCurve SpecConstruct.
Open Scope R_scope.
Open Scope string_scope.
Open Scope list_scope.

(** [P] has one entry per posterior sample (E events of n samples, event after event), [I] one per injection (k of them), and each
    entry is related by [rel] to the values the tables hold for that sample under each column name. *)
Definition each_sample (pe : dict arr2) (inj : dict (list num)) (E n k : nat) (P I : list num) (rel : (string -> num) -> num -> Prop) : Prop :=
  length P = (E * n)%nat /\ length I = k /\
  (forall i j, (i < E)%nat -> (j < n)%nat -> rel (fun c => at2 pe c i j) (nth (i * n + j) P NaN)) /\
  (forall j, (j < k)%nat -> rel (fun c => at1 inj c j) (nth j I NaN)).
(** both tables have the column: E rows of n samples, k injections *)
Definition has_data (pe : dict arr2) (inj : dict (list num)) (E n k : nat) (c : string) : Prop := has_table E n pe c /\ has_column k inj c.

(** mass models: a spline in (log m, log p) on [mmin, mmax] for the primary mass, a spline in log p on [mmin/mmax, 1] for the ratio *)
Definition mass_density (mmin mmax : R) (nm nq : nat) (mass_cs q_cs : list num) (x : string -> num) (y : num) : Prop :=
  exists p r, density_at KLogXLogY (Fin mmin, Fin mmax) no_opts nm mass_cs (x "mass_1") p /\
    density_at KLogY (Fin (mmin / mmax), Fin 1) no_opts nq q_cs (x "mass_ratio") r /\ y = nmul r p.
(** spin models: log-density splines on [0, 1] for the magnitudes and on [-1, 1] for the tilts *)
Definition magnitude_density (n1 n2 : nat) (c1 c2 : list num) (x : string -> num) (y : num) : Prop :=
  exists p r, density_at KLogY (Fin 0, Fin 1) no_opts n1 c1 (x "a_1") p /\ density_at KLogY (Fin 0, Fin 1) no_opts n2 c2 (x "a_2") r /\ y = nmul p r.
Definition tilt_density (n1 n2 : nat) (c1 c2 : list num) (x : string -> num) (y : num) : Prop :=
  exists p r, density_at KLogY (Fin (-1), Fin 1) no_opts n1 c1 (x "cos_tilt_1") p /\ density_at KLogY (Fin (-1), Fin 1) no_opts n2 c2 (x "cos_tilt_2") r /\ y = nmul p r.
(** redshift model: zero above [b], elsewhere v(z) (1+z)^(lamb-1) exp(spline in log z), normalised on the grid from a to b *)
Definition redshift_density (v : R -> R) (a b lamb : R) (n : nat) (cs : list R) (z : R) : R :=
  if Rleb z b then scaled_on (rlinspace a b 1000) (fun z => v z * Rpower (1 + z) (lamb - 1) * exp (curve (ln a) (ln b) n 4 cs (ln z))) z else 0.
(** the redshift columns hold these real numbers *)
Definition redshifts_are (pe : dict arr2) (inj : dict (list num)) (p0 : R) (zs : list R) (i0 : R) (is : list R) : Prop :=
  exists t, assoc "redshift" pe = Ok t /\ concat (a_rows t) = map Fin (p0 :: zs) /\ assoc "redshift" inj = Ok (map Fin (i0 :: is)).

(** the weight of one sample in the B-spline example: the product of the densities of its masses, spins and redshift over the
    sampling prior *)
Definition sample_weight mmin mmax nm nq na nct mcs qcs a1 t1 a2 t2 (dz : R -> R) (x : string -> num) (y : num) : Prop :=
  exists pm pa pt z, mass_density mmin mmax nm nq mcs qcs x pm /\ magnitude_density na na a1 a2 x pa /\ tilt_density nct nct t1 t2 x pt /\ x "redshift" = Fin z /\
    y = ndiv (nmul (nmul (nmul pm pa) pt) (Fin (dz z))) (x "prior").
(** the vector drawn at a site *)
Definition drawn (rv : string -> nat -> num) (site : string) (n : nat) : list num := map (rv site) (seq 0 n).
