(** examples/simple_powerlaw_peak_example.py: the power-law-peak population model, from the data dictionaries to the likelihood. *)
From Verif Require Export MSetup.
Open Scope R_scope.
Open Scope string_scope.
Open Scope list_scope.

(** examples/utils.py:118, parametric.py:112-121: the redshift model of the run; jnp.min of an empty array is a ValueError *)
Definition peak_setup (dVcdz : num -> num) (pedict : dict arr2) (injdict : dict (list num)) : result zmodel :=
  do z <- assoc "redshift" pedict; do z_inj <- assoc "redshift" injdict;
  match flat z, z_inj with
  | p0 :: ps, i0 :: is => Ok (redshift_model_init dVcdz p0 ps i0 is)
  | _, _ => Err ValueError
  end.

(** simple_powerlaw_peak_example.py:83-88: the columns get_weights reads, in that order *)
Definition peak_columns : list string := ["mass_1"; "mass_ratio"; "a_1"; "a_2"; "cos_tilt_1"; "cos_tilt_2"; "redshift"; "prior"].
Fixpoint read_columns {A} (d : dict A) (cs : list string) : result (list A) :=
  match cs with [] => Ok [] | c :: r => do v <- assoc c d; do vs <- read_columns d r; Ok (v :: vs) end.
(** an expression on arrays is evaluated at each entry; the columns of a dictionary all have one shape (broadcasting is not modelled) *)
Definition elementwise (f : list num -> num) (cols : list (list num)) : list num :=
  map (fun j => f (map (fun c => nth j c NaN) cols)) (seq 0 (length (hd [] cols))).
Definition elementwise2 (f : list num -> num) (cols : list arr2) : arr2 :=
  Arr2 (a_cols (hd (Arr2 0 []) cols)) (map (fun i => elementwise f (map (fun t => nth i (a_rows t) []) cols)) (seq 0 (length (a_rows (hd (Arr2 0 []) cols))))).

Section Example.
(** [betaln] is jax's betaln, [rv] the draws at the sample sites.  The redshift model is called on the arrays it was built from, so
    the volume element stored for a sample is the one at its redshift. *)
Variables (betaln : num -> num -> num) (dVcdz : num -> num) (rv : string -> num) (zm : zmodel) (mmin mmax : num).
(** lines 81-92 at one sample *)
Definition get_weight (l : list num) : num :=
  match l with
  | [m1; q; a1; a2; ct1; ct2; z; prior] =>
      peak_weight betaln zm (rv "alpha") (rv "beta") mmin mmax (rv "mu_peak") (rv "sig_peak") (rv "lambda_m") (rv "mu_a1") (rv "var_a1") (rv "mu_a2") (rv "var_a2")
        (rv "lambda_ct1") (rv "lambda_ct2") (rv "sig_ct1") (rv "sig_ct2") (rv "lamb") m1 q a1 a2 ct1 ct2 z (dVcdz z) prior
  | _ => NaN
  end.
(** lines 51-78: the sites before the likelihood *)
Definition sampled (n : string) : site := Site Sample n (Scal (rv n)).
Definition shape_sites : list site :=
  [Site Deterministic "alpha_a1" (Scal (fst (peak_shapes (rv "mu_a1") (rv "var_a1")))); Site Deterministic "alpha_a2" (Scal (fst (peak_shapes (rv "mu_a2") (rv "var_a2"))));
   Site Deterministic "beta_a1" (Scal (snd (peak_shapes (rv "mu_a1") (rv "var_a1")))); Site Deterministic "beta_a2" (Scal (snd (peak_shapes (rv "mu_a2") (rv "var_a2"))))].
Definition peak_sites : list site :=
  map sampled ["beta"; "alpha"; "mu_peak"; "sig_peak"; "lambda_m"; "mu_a1"; "var_a1"; "mu_a2"; "var_a2"] ++ shape_sites ++
  map sampled ["lambda_ct1"; "lambda_ct2"; "sig_ct1"; "sig_ct2"; "lamb"].
(** lines 30-116 model: [a] collects the arguments for hierarchical_likelihood, [keywords] the names they are passed by *)
Definition peak_example_with (keywords : list string) (a : hl_args) (d : draws) (pedict : dict arr2) (injdict : dict (list num)) : M (option num) :=
  mbind (peak_sites, Ok tt) (fun _ =>
  match read_columns pedict peak_columns, read_columns injdict peak_columns with
  | Ok pe, Ok inj => call_likelihood 5 keywords a d (PEOne (elementwise2 get_weight pe)) (elementwise get_weight inj)
  | Err e, _ | _, Err e => raise e
  end).
End Example.
(** as shipped *)
Definition peak_example_model betaln dVcdz rv zm mmin mmax := peak_example_with betaln dVcdz rv zm mmin mmax peak_keywords.
