(** The command-line parsers: gwinferno/pipeline/utils.py:21-43 and gwinferno/pipeline/parser.py:121-137, with the part of
    argparse they use (Lib/argparse.py: parse_known_args, _parse_optional, _get_option_tuples, _get_values). *)
From Verif Require Export MSetup.
Open Scope R_scope.
Open Scope string_scope.
Open Scope list_scope.

(** type=... of an option; [TFlag] is action="store_true", [THelp] the automatic --help *)
Inductive atype : Type := TStr | TInt | TFloat | TBool | TFlag | THelp.
(** option string, attribute name (dashes replaced by underscores), type, default *)
Record option_decl : Type := Decl { o_flag : string; o_dest : string; o_type : atype; o_default : arg }.

(** utils.py:21-43 *)
Definition base_options : list option_decl := [
  Decl "--help" "help" THelp ANone;
  Decl "--pe-inj-file" "pe_inj_file" TStr ANone;
  Decl "--run-label" "run_label" TStr ANone;
  Decl "--result-dir" "result_dir" TStr ANone;
  Decl "--m-nsplines" "m_nsplines" TStr (AInt 50);
  Decl "--q-nsplines" "q_nsplines" TStr (AInt 30);
  Decl "--a-nsplines" "a_nsplines" TStr (AInt 16);
  Decl "--tilt-nsplines" "tilt_nsplines" TStr (AInt 16);
  Decl "--z-nsplines" "z_nsplines" TStr (AInt 20);
  Decl "--mmin" "mmin" TFloat (AFloat (Fin 3));
  Decl "--mmax" "mmax" TFloat (AFloat (Fin 100));
  Decl "--chains" "chains" TInt (AInt 1);
  Decl "--samples" "samples" TInt (AInt 1500);
  Decl "--thinning" "thinning" TInt (AInt 1);
  Decl "--warmup" "warmup" TInt (AInt 1000);
  Decl "--skip-inference" "skip_inference" TFlag (ABool false);
  Decl "--rngkey" "rngkey" TInt (AInt 1);
  Decl "--save-plots" "save_plots" TBool (ABool true)].
(** parser.py:121-137 *)
Definition parser_options : list option_decl := [
  Decl "--help" "help" THelp ANone;
  Decl "--data-dir" "data_dir" TStr (AStr "/home/bruce.edelman/projects/GWTC3_allevents/");
  Decl "--inj-file" "inj_file" TStr (AStr "/home/bruce.edelman/projects/GWTC3_allevents/o1o2o3_mixture_injections.hdf5");
  Decl "--outdir" "outdir" TStr (AStr "results");
  Decl "--mmin" "mmin" TFloat (AFloat (Fin 3));
  Decl "--mmax" "mmax" TFloat (AFloat (Fin 100));
  Decl "--chains" "chains" TInt (AInt 1);
  Decl "--samples" "samples" TInt (AInt 1500);
  Decl "--thinning" "thinning" TInt (AInt 1);
  Decl "--warmup" "warmup" TInt (AInt 500);
  Decl "--skip-inference" "skip_inference" TFlag (ABool false)].

Section Parse.
(** int(s) and float(s); None stands for a ValueError *)
Variables (py_int : string -> option Z) (py_float : string -> option num).

(** the converted value; a failed conversion makes argparse print a message and exit (OtherError, as every SystemExit here) *)
Definition convert (t : atype) (v : string) : result arg :=
  match t with
  | TStr => Ok (AStr v)
  | TInt => match py_int v with Some z => Ok (AInt z) | None => Err OtherError end
  | TFloat => match py_float v with Some x => Ok (AFloat x) | None => Err OtherError end
  | TBool => Ok (ABool (negb (String.eqb v "")))
  | TFlag | THelp => Err OtherError
  end.

(** s.split("=", 1): the text before and after the first "=" *)
Fixpoint split_eq (s : string) : string * option string :=
  match s with
  | EmptyString => ("", None)
  | String c r => if Ascii.eqb c "=" then ("", Some r) else let '(a, b) := split_eq r in (String c a, b)
  end.
Definition is_digit (c : ascii) : bool := let n := nat_of_ascii c in ((48 <=? n) && (n <=? 57))%nat%bool.
(** the regular expression ^-\d+$|^-\d*\.\d+$ (after the dash: [seen] a digit, [dot] a dot) *)
Fixpoint neg_tail (s : string) (seen dot : bool) : bool :=
  match s with
  | EmptyString => seen
  | String c r => if is_digit c then neg_tail r true dot else if (Ascii.eqb c "." && negb dot)%bool then neg_tail r false true else false
  end.
Definition looks_negative (s : string) : bool := match s with String "-" r => neg_tail r false false | _ => false end.

Inductive token : Type := Value | Opt (o : option_decl) (explicit : option string) | Bad.
Definition lookup (opts : list option_decl) (name : string) : option option_decl := find (fun o => String.eqb (o_flag o) name) opts.
(** _parse_optional: an exact option, --option=value, an unambiguous beginning of an option, or a value.  "--" on its own and
    short options (only -h exists, which exits) are [Bad]. *)
Definition classify (opts : list option_decl) (t : string) : token :=
  if negb (String.prefix "-" t) then Value else
  match lookup opts t with
  | Some o => Opt o None
  | None =>
      if String.eqb t "-" then Value else if String.eqb t "--" then Bad else
      let '(name, explicit) := split_eq t in
      match (match explicit with Some _ => lookup opts name | None => None end) with
      | Some o => Opt o explicit
      | None =>
          match (if String.prefix "--" t then filter (fun o => String.prefix name (o_flag o)) opts else []) with
          | [o] => Opt o explicit
          | _ :: _ => Bad
          | [] => if String.prefix "-h" t then Bad else if (looks_negative t || contains " " t)%bool then Value else Bad
          end
      end
  end.

(** consume the arguments from left to right; the namespace maps attribute names to values *)
Fixpoint parse_from (opts : list option_decl) (toks : list string) (ns : dict arg) : result (dict arg) :=
  match toks with
  | [] => Ok ns
  | t :: r =>
      match classify opts t with
      | Opt o explicit =>
          match o_type o, explicit with
          | THelp, _ => Err OtherError
          | TFlag, None => parse_from opts r (dset (o_dest o) (ABool true) ns)
          | TFlag, Some _ => Err OtherError
          | ty, Some v => do a <- convert ty v; parse_from opts r (dset (o_dest o) a ns)
          | ty, None =>
              match r with
              | v :: r' => match classify opts v with
                           | Value => do a <- convert ty v; parse_from opts r' (dset (o_dest o) a ns)
                           | _ => Err OtherError
                           end
              | [] => Err OtherError
              end
          end
      | _ => Err OtherError
      end
  end.
Definition defaults (opts : list option_decl) : dict arg := map (fun o => (o_dest o, o_default o)) (filter (fun o => match o_type o with THelp => false | _ => true end) opts).
Definition parse_args (opts : list option_decl) (argv : list string) : result (dict arg) := parse_from opts argv (defaults opts).
End Parse.

(** examples/simple_bspline_example.py:119-127 and examples/utils.py:54-59: the parsed numbers of splines reach the set-up helpers *)
Definition run_setup (dVcdz : num -> num) (ns : dict arg) (pedict : dict arr2) (injdict : dict (list num)) :=
  do nm <- assoc "m_nsplines" ns; do nq <- assoc "q_nsplines" ns; do na <- assoc "a_nsplines" ns; do nct <- assoc "tilt_nsplines" ns; do nz <- assoc "z_nsplines" ns;
  do mmin <- assoc "mmin" ns; do mmax <- assoc "mmax" ns;
  match mmin, mmax with
  | AFloat a, AFloat b => example_setup dVcdz pedict injdict nm nq na nct nz a b
  | _, _ => Err TypeError
  end.
