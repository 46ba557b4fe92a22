(** The population the shipped configuration describes, in elementary terms. *)
From Coquelicot Require Import Coquelicot.
From Verif Require Export MConfig SpecConstruct SpecPieces SpecPeak SpecParser.
Open Scope R_scope.
Open Scope string_scope.
Open Scope list_scope.

(** a power law normalised on [lo, hi]; outside, the exponential of the most negative float stands for zero *)
Definition line_pdf (alpha lo hi x : R) : R :=
  if (Rleb lo x && Rleb x hi)%bool then Rpower x alpha / RInt (fun t => Rpower t alpha) lo hi else exp (- FMAX).
Definition config_zs : list R := rlinspace (/ 10 ^ 9) (23/10) 1000.
(** redshift density: volume element (straight lines between the grid points) times (1+z)^(lamb-1), scaled to one on the grid *)
Definition config_z (V : R -> R) (lamb z : R) : R := if Rleb z (23/10) then scaled_on config_zs (fun z => V z * Rpower (1 + z) (lamb - 1)) z else exp (- FMAX).
(** density of the configured population over the sampling prior *)
Definition config_weight (V : R -> R) (alpha mmin mmax beta lamb : R) (b : binary) : R :=
  line_pdf alpha mmin mmax (b_m1 b) * line_pdf beta (2/100) 1 (b_q b) * config_z V lamb (b_z b) / b_prior b.
(** the four columns the configuration uses *)
Definition config_tables (pe : dict arr2) (inj : dict (list num)) (n : nat) (events : list (list binary)) (found : list binary) : Prop :=
  Forall (fun e => length e = n) events /\
  forall c f, In (c, f) [("mass_1", b_m1); ("mass_ratio", b_q); ("redshift", b_z); ("prior", b_prior)] ->
    assoc c pe = Ok (Arr2 n (map (map (fun b => Fin (f b))) events)) /\ assoc c inj = Ok (map (fun b => Fin (f b)) found).
(** the priors of the configuration *)
Definition numpyro_prior (name p1 : string) (x1 : R) (p2 : string) (x2 : R) : pdist :=
  DNumpyro name [(p1, HConst (PRaw (YNum (Fin x1)))); (p2, HConst (PRaw (YNum (Fin x2))))].
Definition config_sites : list (string * pdist) :=
  [("mass_1_alpha", numpyro_prior "Normal" "loc" 0 "scale" 3); ("mass_1_minimum", numpyro_prior "Uniform" "low" 2 "high" 10); ("mass_1_maximum", numpyro_prior "Uniform" "low" 50 "high" 100);
   ("mass_ratio_alpha", numpyro_prior "Normal" "loc" 0 "scale" 3); ("redshift_lamb", numpyro_prior "Normal" "loc" 0 "scale" 3)].
(** the values drawn at these sites *)
Definition config_draws (rv : string -> sval) (alpha mmin mmax beta lamb : R) : Prop :=
  rv "mass_1_alpha" = Scal (Fin alpha) /\ rv "mass_1_minimum" = Scal (Fin mmin) /\ rv "mass_1_maximum" = Scal (Fin mmax) /\
  rv "mass_ratio_alpha" = Scal (Fin beta) /\ rv "redshift_lamb" = Scal (Fin lamb).
(** the flags of the likelihood, as the log-likelihood reads them *)
Definition flagged (fl : flags) (N : R) (nobs : nat) : hl_args :=
  HL (CFloat (Fin N)) nobs (Fin 1) None false false [] false (f_marg fl) (f_neff fl) (f_var fl) (f_ppc fl) None None None (Fin 2) (Fin 2) (Fin 100) true.
(** the package with a redshift class that takes the grid it is given, and computes the volume element on it *)
Definition with_grid (ext : pdist -> num -> num) (dVcdz : num -> num) : world cls pdist :=
  let w := package ext in
  World (w_prior w)
    (fun c kw => match c with
                 | KPowerlawRedshift => do g <- assoc "grid" kw; do zs <- vector g;
                     call c (filter (fun kv => negb (String.eqb (fst kv) "grid")) kw ++ [("zgrid", HGrid zs); ("dVcdz", HGrid (map dVcdz zs))])
                 | _ => call c kw end) (w_mix w) (w_logp w) (w_norm w).
(** the classes of the package that have a parameter called grid *)
Definition takes_grid (c : cls) : Prop := In "grid" (fst (signature c) ++ snd (signature c)).
