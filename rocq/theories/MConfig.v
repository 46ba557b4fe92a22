(** The shipped configuration (examples/config_files/config.yml, config_w_py_model.yml, model.py) and the distribution classes it names
    (gwinferno/numpyro_distributions.py), as a [world] for the model built from a configuration (MConstruct). *)
From Verif Require Export MConstruct MNumpyro MRun MSetup.
Open Scope R_scope.
Open Scope string_scope.
Open Scope list_scope.

(** ** Classes: those of gwinferno/numpyro_distributions.py, and numpyro's own by name *)
Inductive cls : Set := KSine | KCosine | KPowerlaw | KPowerlawRedshift | KPowerlawSmoothedPowerlaw | KBSplineDistribution | KPSplineCoeficientPrior | KNumpyro (name : string).
(** getattr: a missing name raises AttributeError *)
Definition assoc_attr {A} (f : string) (d : dict A) : result A := match assoc f d with Ok v => Ok v | Err _ => Err AttributeError end.
(** getattr(import_module(m), f): numpyro.distributions is taken to have every name; other modules are not modelled (ImportError) *)
Definition package_import (m f : string) : result cls :=
  if String.eqb m "gwinferno.numpyro_distributions" then
    assoc_attr f [("Sine", KSine); ("Cosine", KCosine); ("Powerlaw", KPowerlaw); ("PowerlawRedshift", KPowerlawRedshift); ("PowerlawSmoothedPowerlaw", KPowerlawSmoothedPowerlaw);
                  ("BSplineDistribution", KBSplineDistribution); ("PSplineCoeficientPrior", KPSplineCoeficientPrior)]
  else if String.eqb m "numpyro.distributions" then Ok (KNumpyro f)
  else Err ImportError.
(** the parameters of __init__ without self: (without default, with default) (lines 34, 71, 109, 163, 214, 266, 306) *)
Definition signature (c : cls) : list string * list string :=
  match c with
  | KSine | KCosine => ([], ["minimum"; "maximum"; "validate_args"])
  | KPowerlaw => (["alpha"], ["minimum"; "maximum"; "low"; "high"; "validate_args"])
  | KPowerlawRedshift => (["lamb"; "maximum"; "zgrid"; "dVcdz"], ["low"; "high"; "validate_args"])
  | KPowerlawSmoothedPowerlaw => (["alpha"; "minimum"; "maximum"; "alpha_max"; "alpha_min"; "low"; "high"], ["validate_args"])
  | KBSplineDistribution => (["minimum"; "maximum"; "cs"; "grid"; "grid_dmat"], ["validate_args"])
  | KPSplineCoeficientPrior => (["N"; "inv_var"], ["diff_order"; "validate_args"])
  | KNumpyro _ => ([], [])
  end.
(** c( **kw) binds: every parameter without default is given, every keyword is a parameter *)
Definition accepts (c : cls) (kw : list string) : bool :=
  let '(required, optional) := signature c in
  (forallb (fun p => existsb (String.eqb p) kw) required && forallb (fun k => existsb (String.eqb k) (required ++ optional)) kw)%bool.

(** ** Distribution objects *)
Inductive pdist : Type :=
  | DSine (minimum maximum : num) | DCosine (minimum maximum : num) | DPowerlaw (alpha minimum maximum : num) | DRedshift (d : plz) | DSmoothed (d : pspl)
  | DSpline (d : bsd) | DNumpyro (name : string) (params : dict hval) | DMixture (mixing : pdist) (components : list pdist).
(** an argument that is a number; an argument that is a vector; a matrix by rows (others are not modelled: OtherError) *)
Definition scalar (v : hval) : result num := match v with HConst (PRaw (YNum x)) | HDraw (Scal x) => Ok x | _ => Err OtherError end.
Fixpoint ynums (l : list yaml) : result (list num) := match l with [] => Ok [] | YNum x :: r => do r <- ynums r; Ok (x :: r) | _ => Err OtherError end.
Definition vector (v : hval) : result (list num) := match v with HConst (PArr l) => ynums l | HDraw (Vec l) | HGrid l => Ok l | _ => Err OtherError end.
Fixpoint yrows (l : list yaml) : result (list (list num)) := match l with [] => Ok [] | YList x :: r => do x <- ynums x; do r <- yrows r; Ok (x :: r) | _ => Err OtherError end.
Definition matrix (v : hval) : result (list (list num)) := match v with HConst (PArr l) => yrows l | _ => Err OtherError end.
Definition arg (k : string) (kw : dict hval) : result num := do v <- assoc k kw; scalar v.
Definition arg_or (dflt : num) (k : string) (kw : dict hval) : result num := match assoc k kw with Ok v => scalar v | Err _ => Ok dflt end.
(** the bodies of __init__ with their arguments by name; PSplineCoeficientPrior, whose log_prob takes vectors, is not built *)
Definition build (c : cls) (kw : dict hval) : result pdist :=
  match c with
  | KSine => do a <- arg_or (Fin 0) "minimum" kw; do b <- arg_or (Fin PI) "maximum" kw; Ok (DSine a b)
  | KCosine => do a <- arg_or (Fin (- PI / 2)) "minimum" kw; do b <- arg_or (Fin (PI / 2)) "maximum" kw; Ok (DCosine a b)
  | KPowerlaw => do al <- arg "alpha" kw; do a <- arg_or (Fin 0) "minimum" kw; do b <- arg_or (Fin 1) "maximum" kw; Ok (DPowerlaw al a b)
  | KPowerlawRedshift => do l <- arg "lamb" kw; do b <- arg "maximum" kw; do zg <- assoc "zgrid" kw; do zg <- vector zg; do dv <- assoc "dVcdz" kw; do dv <- vector dv;
      do d <- make_plz l b zg dv; Ok (DRedshift d)
  | KPowerlawSmoothedPowerlaw => do al <- arg "alpha" kw; do a <- arg "minimum" kw; do b <- arg "maximum" kw; do ax <- arg "alpha_max" kw; do an <- arg "alpha_min" kw;
      do lo <- arg "low" kw; do hi <- arg "high" kw; Ok (DSmoothed (make_pspl al a b ax an lo hi))
  | KBSplineDistribution => do cs <- assoc "cs" kw; do cs <- vector cs; do g <- assoc "grid" kw; do g <- vector g; do m <- assoc "grid_dmat" kw; do m <- matrix m;
      do d <- make_bsd cs g m; Ok (DSpline d)
  | KPSplineCoeficientPrior => Err OtherError
  | KNumpyro name => Ok (DNumpyro name kw)
  end.
(** c( **kw); numpyro's own classes are taken to accept their keywords *)
Definition call (c : cls) (kw : dict hval) : result pdist :=
  match c with
  | KNumpyro _ => build c kw
  | _ => if accepts c (keys kw) then build c kw else Err TypeError
  end.
(** d.log_prob and d.norm; numpyro's own distributions are the oracle [ext] *)
Definition log_prob_of (ext : pdist -> num -> num) (d : pdist) (x : num) : num :=
  match d with
  | DSine _ _ => sine_log_prob x | DCosine _ _ => cosine_log_prob x | DPowerlaw al a b => pl_log_prob al a b x | DRedshift d => plz_log_prob d x
  | DSmoothed d => pspl_log_prob d x | DSpline d => bsd_log_prob d x | _ => ext d x
  end.
Definition norm_of (d : pdist) : option num := match d with DRedshift d => Some (z_norm d) | DSpline d => Some (b_norm d) | _ => None end.
Definition package (ext : pdist -> num -> num) : world cls pdist :=
  World (fun c ps => call c (map (fun kv => (fst kv, HConst (snd kv))) ps)) call (fun _ d ds => Ok (DMixture d ds)) (log_prob_of ext) norm_of.

(** ** examples/config_files/config.yml, as yaml.safe_load returns it *)
Definition yprior (name p1 : string) (x1 : R) (p2 : string) (x2 : R) : yaml :=
  YMap [("prior", YStr ("numpyro.distributions." ++ name)); ("prior_params", YMap [(p1, YNum (Fin x1)); (p2, YNum (Fin x2))])].
Definition yvalue (x : R) : yaml := YMap [("value", YNum (Fin x))].
Definition yparam (name : string) (hyper_params : list (string * yaml)) : yaml :=
  YMap [("model", YStr ("gwinferno.numpyro_distributions." ++ name)); ("hyper_params", YMap hyper_params)].
Definition sampler_yml : yaml :=
  YMap [("kernel", YStr "NUTS"); ("kernel_kwargs", YMap [("dense_mass", YBool true)]);
        ("mcmc_kwargs", YMap [("num_warmup", YNum (Fin 500)); ("num_samples", YNum (Fin 1500)); ("num_chains", YNum (Fin 1))])].
Definition data_yml : yaml :=
  YMap [("catalog_summary_json", YStr "/home/bruce.edelman/projects/O4_prep/o4_gwinferno_mdcs/data/smoothed_powerlaw/realization_0/catalog.json"); ("seminanalytic_injs", YBool true)].
Definition shipped (models : yaml) : yaml :=
  YMap [("label", YStr "Truncated_PowerlawRedshift_MDC_smoothed_power_law_0"); ("outdir", YStr "outdir"); ("models", models); ("sampler", sampler_yml); ("data", data_yml)].
Definition config_yml : yaml := shipped (YMap
  [("mass_1", yparam "Powerlaw" [("alpha", yprior "Normal" "loc" 0 "scale" 3); ("minimum", yprior "Uniform" "low" 2 "high" 10); ("maximum", yprior "Uniform" "low" 50 "high" 100)]);
   ("mass_ratio", yparam "Powerlaw" [("alpha", yprior "Normal" "loc" 0 "scale" 3); ("minimum", yvalue (2/100)); ("maximum", yvalue 1)]);
   ("redshift", yparam "PowerlawRedshift" [("lamb", yprior "Normal" "loc" 0 "scale" 3); ("maximum", yvalue (23/10))])]).

(** ** examples/config_files/model.py:10-49.  [rv] are the draws of the five sites; the sites' priors (lines 11-15) play no part in the values. *)
Definition python_model (ext : pdist -> num -> num) (rv : string -> num) (a : hl_args) (d : draws) (samps : dict arr2) (injs : dict (list num)) : M (option num) :=
  let draw k := HDraw (Scal (rv k)) in let const x := HConst (PRaw (YNum (Fin x))) in
  let! _ := tell (Site Sample "alpha" (Scal (rv "alpha"))) in
  let! _ := tell (Site Sample "beta" (Scal (rv "beta"))) in
  let! _ := tell (Site Sample "mmin" (Scal (rv "mmin"))) in
  let! _ := tell (Site Sample "mmax" (Scal (rv "mmax"))) in
  let! _ := tell (Site Sample "lamb" (Scal (rv "lamb"))) in
  let! m1dist := lift (call KPowerlaw [("alpha", draw "alpha"); ("minimum", draw "mmin"); ("maximum", draw "mmax")]) in
  let! qdist := lift (call KPowerlaw [("alpha", draw "beta"); ("minimum", const (2/100)); ("maximum", const 1)]) in
  let! zdist := lift (call KPowerlawRedshift [("lamb", draw "lamb"); ("maximum", const (23/10))]) in
  let lp := log_prob_of ext in
  let! iw := lift (do m <- assoc "mass_1" injs; do q <- assoc "mass_ratio" injs; do z <- assoc "redshift" injs; do p <- assoc "prior" injs;
                   weights1 p [map (lp m1dist) m; map (lp qdist) q; map (lp zdist) z]) in
  let! pw := lift (do m <- assoc "mass_1" samps; do q <- assoc "mass_ratio" samps; do z <- assoc "redshift" samps; do p <- assoc "prior" samps;
                   weights2 p [amap (lp m1dist) m; amap (lp qdist) q; amap (lp zdist) z]) in
  call_likelihood 2 config_keywords a d (PEOne pw) iw.
