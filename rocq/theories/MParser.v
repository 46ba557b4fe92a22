(** gwinferno/pipeline/parser.py: the configuration reader. *)
From Coq Require Export String Ascii.
From Verif Require Export MAnalysis.
Open Scope R_scope.
Open Scope string_scope.
Open Scope list_scope.

(** ** Python dictionaries and strings *)

(** A dict with string keys, in insertion order.  Lookup is [assoc] (KeyError when absent). *)
Definition dict (A : Type) : Type := list (string * A).
Fixpoint mem {A} (k : string) (d : dict A) : bool :=
  match d with [] => false | (k', _) :: r => (String.eqb k k' || mem k r)%bool end.
(** d[k] = v: an existing key keeps its place, a new one goes last *)
Fixpoint dset {A} (k : string) (v : A) (d : dict A) : dict A :=
  match d with [] => (k, v) :: nil | (k', v') :: r => if String.eqb k k' then (k', v) :: r else (k', v') :: dset k v r end.
Definition keys {A} (d : dict A) : list string := map fst d.

(** s.split(c) for a one-character separator: never empty *)
Fixpoint py_split (c : ascii) (s : string) : list string :=
  match s with
  | EmptyString => "" :: nil
  | String a r =>
      if Ascii.eqb a c then "" :: py_split c r
      else match py_split c r with h :: t => String a h :: t | [] => String a "" :: nil end
  end.
(** sep.join(l) *)
Definition join (sep : string) (l : list string) : string := String.concat sep l.
(** s.replace(old, new) for a non-empty [old]: left to right, no overlaps ([skip] characters of the
    last match are still to be dropped) *)
Fixpoint replace_from (old new : string) (skip : nat) (s : string) : string :=
  match s with
  | EmptyString => ""
  | String a r =>
      match skip with
      | S k => replace_from old new k r
      | O => if String.prefix old s then (new ++ replace_from old new (String.length old - 1) r)%string
             else String a (replace_from old new O r)
      end
  end.
Definition replace (old new s : string) : string := replace_from old new O s.
(** sub in s *)
Definition contains (sub s : string) : bool := match String.index 0 sub s with Some _ => true | None => false end.
(** l[-1], of a list that is never empty *)
Definition last_str (l : list string) : string := last l "".

(** ** What yaml.safe_load returns.  Keys that are not strings are not modelled. *)
Inductive yaml : Type :=
  | YNull | YBool (b : bool) | YNum (x : num) | YStr (s : string) | YList (l : list yaml) | YMap (d : list (string * yaml)).

(** k in y *)
Definition yin (k : string) (y : yaml) : result bool :=
  match y with
  | YMap d => Ok (mem k d)
  | YStr s => Ok (contains k s)
  | YList l => Ok (existsb (fun e => match e with YStr s => String.eqb k s | _ => false end) l)
  | _ => Err TypeError
  end.
(** y[k] *)
Definition yget (k : string) (y : yaml) : result yaml :=
  match y with YMap d => assoc k d | _ => Err TypeError end.
(** [p for p in y]; iterating over a list of anything but strings is not modelled (OtherError) *)
Fixpoint chars (s : string) : list string := match s with EmptyString => [] | String a r => String a "" :: chars r end.
Fixpoint all_strs (l : list yaml) : result (list string) :=
  match l with
  | [] => Ok []
  | YStr s :: r => do r' <- all_strs r; Ok (s :: r')
  | _ => Err OtherError
  end.
Definition yiter (y : yaml) : result (list string) :=
  match y with YMap d => Ok (keys d) | YStr s => Ok (chars s) | YList l => all_strs l | _ => Err TypeError end.
(** len(y) *)
Definition ylen (y : yaml) : result nat :=
  match y with YMap d => Ok (length d) | YStr s => Ok (String.length s) | YList l => Ok (length l) | _ => Err TypeError end.
(** a string where the code needs one (split, dictionary key); other values raise AttributeError or TypeError *)
Definition ystr (e : exn) (y : yaml) : result string := match y with YStr s => Ok s | _ => Err e end.

(** The shape of jnp.array(y), if it has one *)
Definition shape_eqb (a b : list nat) : bool := if list_eq_dec Nat.eq_dec a b then true else false.
Fixpoint yshape (y : yaml) : option (list nat) :=
  match y with
  | YNum _ | YBool _ => Some []
  | YList l =>
      match map yshape l with
      | [] => Some (O :: nil)
      | Some s :: r => if forallb (fun o => match o with Some s' => shape_eqb s s' | None => false end) r
                       then Some (length l :: s) else None
      | None :: _ => None
      end
  | _ => None
  end.

(** A Python value handed to a distribution: a yaml value as it is, or an array made from a yaml list. *)
Inductive pval : Type := PRaw (y : yaml) | PArr (l : list yaml).
(** parser.py:81-82 and 86-89: lists become arrays (jnp.array raises TypeError for a list that is not a
    rectangular array of numbers; Python distinguishes TypeError and ValueError here), the rest is kept *)
Definition to_pval (y : yaml) : result pval :=
  match y with
  | YList l => match yshape y with Some _ => Ok (PArr l) | None => Err TypeError end
  | _ => Ok (PRaw y)
  end.

(** ** parser.py:13-31: PopPrior (or a plain value) and PopModel / PopMixtureModel (or a string naming
    the parameter whose model is shared, or anything else).  [C]: the class objects that were imported. *)
Inductive prior_entry (C : Type) : Type := EPrior (dist : C) (params : dict pval) | EConst (v : pval).
Inductive model_entry (C : Type) : Type :=
  | ESimple (model : C) (params : list string)
  | EMixture (model mix_dist : C) (mix_params : list string) (components : list C) (component_params : list (list string))
  | EIid (s : string)
  | EOther (y : yaml).
Arguments EPrior {C}. Arguments EConst {C}.
Arguments ESimple {C}. Arguments EMixture {C}. Arguments EIid {C}. Arguments EOther {C}.

(** parser.py:41-45.  [import m f] = getattr(import_module(m), f) for an absolute module name;
    import_module("") raises ValueError, a leading dot TypeError (no package given). *)
Definition load_dist_from_string {C} (import : string -> string -> result C) (dist : string) : result C :=
  let split_d := py_split "." dist in
  let module := join "." (removelast split_d) in
  let function := last_str split_d in
  match module with
  | EmptyString => Err ValueError
  | String a _ => if Ascii.eqb a "." then Err TypeError else import module function
  end.

(** parser.py:34-38: (directory appended to sys.path, the attribute "model" of the module) *)
Definition load_model_from_python_file {C} (import : string -> string -> result C) (path : string) : string * result C :=
  let fn := last_str (py_split "/" path) in
  let direct := replace ("/" ++ fn)%string "" path in
  let module := replace ".py" "" fn in
  (direct, match module with
           | EmptyString => Err ValueError
           | String a _ => if Ascii.eqb a "." then Err TypeError else import module "model"
           end).

(** The dictionaries a ConfigReader builds (parser.py:49-56) *)
Record reader (C : Type) : Type := Reader {
  r_models : dict (model_entry C); r_priors : dict (prior_entry C); r_sampling : list string }.
Arguments Reader {C}. Arguments r_models {C}. Arguments r_priors {C}. Arguments r_sampling {C}.
Definition new_reader {C} : reader C := Reader [] [] [].

(** parser.py:80-82, the in-place conversion of the lists among the prior parameters *)
Fixpoint conv_params (d : list (string * yaml)) : result (dict pval) :=
  match d with
  | [] => Ok []
  | (k, y) :: r => do v <- to_pval y; do r' <- conv_params r; Ok ((k, v) :: r')
  end.

Definition set_prior {C} (key : string) (e : prior_entry C) (r : reader C) : reader C :=
  Reader (r_models r) (dset key e (r_priors r)) (r_sampling r).
Definition set_model {C} (key : string) (e : model_entry C) (r : reader C) : reader C :=
  Reader (dset key e (r_models r)) (r_priors r) (r_sampling r).

(** parser.py:78-89 add_prior.  prior_params that is not a mapping is an error (iterating and indexing it
    by its elements, or ** on it; an empty list or string is not modelled: TypeError here). *)
Definition add_prior {C} (import : string -> string -> result C) (key : string) (subd : yaml) (r : reader C) : result (reader C) :=
  do p1 <- yin "prior" subd;
  do p2 <- (if p1 then yin "prior_params" subd else Ok false);
  if (p2 : bool) then
    do pp <- yget "prior_params" subd;
    do ps <- match pp with YMap d => conv_params d | _ => Err TypeError end;
    do d <- yget "prior" subd;
    do s <- ystr AttributeError d;
    do c <- load_dist_from_string import s;
    let r := set_prior key (EPrior c ps) r in
    Ok (Reader (r_models r) (r_priors r) (r_sampling r ++ key :: nil))
  else
    do b <- yin "value" subd;
    if (b : bool) then
      do y <- yget "value" subd;
      do v <- to_pval y;
      Ok (set_prior key (EConst v) r)
    else Ok r.

(** for hp in hps: self.add_prior(f"{prefix}_{hp}", hyper_params[hp]) (parser.py:93-94, 106-107, 114-115) *)
Fixpoint add_priors {C} (import : string -> string -> result C) (prefix : string) (hyper_params : yaml)
  (hps : list string) (r : reader C) : result (reader C) :=
  match hps with
  | [] => Ok r
  | hp :: rest =>
      do sub <- yget hp hyper_params;
      do r <- add_prior import (prefix ++ "_" ++ hp)%string sub r;
      add_priors import prefix hyper_params rest r
  end.

(** parser.py:95-96, 117-118 and 98-99: models[shared] = param (a string) *)
Definition add_iid {C} (param : string) (subd : yaml) (r : reader C) : result (reader C) :=
  do b <- yin "iid" subd;
  if (b : bool) then
    do i <- yget "iid" subd;
    do s <- yget "shared_parameter" i;
    do s <- ystr OtherError s;
    Ok (set_model s (EIid param) r)
  else Ok r.

(** parser.py:91-96 add_model *)
Definition add_model {C} (import : string -> string -> result C) (param : string) (subd : yaml) (r : reader C) : result (reader C) :=
  do m <- yget "model" subd;
  do m <- ystr AttributeError m;
  do c <- load_dist_from_string import m;
  do hp <- yget "hyper_params" subd;
  do hps <- yiter hp;
  let r := set_model param (ESimple c hps) r in
  do r <- add_priors import param hp hps r;
  add_iid param subd r.

(** parser.py:108-115, components i+1, ..., i+n *)
Fixpoint add_components {C} (import : string -> string -> result C) (param : string) (subd : yaml) (i n : nat) (r : reader C)
  : result (reader C * list C * list (list string)) :=
  match n with
  | O => Ok (r, [], [])
  | S n' =>
      let name := ("component_" ++ dec (S i))%string in
      do sub <- yget name subd;
      do m <- yget "model" sub;
      do m <- ystr AttributeError m;
      do c <- load_dist_from_string import m;
      do hp <- yget "hyper_params" sub;
      do hps <- yiter hp;
      do r <- add_priors import (param ++ "_" ++ name)%string hp hps r;
      do (rest) <- add_components import param subd (S i) n' r;
      let '(r, cs, ps) := rest in
      Ok (r, c :: cs, hps :: ps)
  end.

(** parser.py:101-118 add_mixture_model.  With no components the loop variable [name] is unbound at
    line 117 (UnboundLocalError, here OtherError). *)
Definition add_mixture_model {C} (import : string -> string -> result C) (param : string) (subd : yaml) (r : reader C) : result (reader C) :=
  do m <- yget "model" subd;
  do m <- ystr AttributeError m;
  do c <- load_dist_from_string import m;
  do md <- yget "mixture_dist" subd;
  do mm <- yget "model" md;
  do mm <- ystr AttributeError mm;
  do mc <- load_dist_from_string import mm;
  do mhp <- yget "hyper_params" md;
  do mps <- yiter mhp;
  do N <- match mps with
          | [] => Err IndexError
          | p :: _ => do x <- yget p mhp; do x <- yget "prior_params" x; do x <- yget "concentration" x; ylen x
          end;
  do r <- add_priors import (param ++ "_mixture_dist")%string mhp mps r;
  do res <- add_components import param subd 0 N r;
  let '(r, cs, ps) := res in
  let r := set_model param (EMixture c mc mps cs ps) r in
  match N with
  | O => Err OtherError
  | S _ => do sub <- yget ("component_" ++ dec N)%string subd; add_iid param sub r
  end.

Definition is_mixture (subd : yaml) : result bool := do m <- yget "model" subd; yin "Mixture" m.

(** parser.py:68-76 construct_model_and_prior_dicts *)
Fixpoint add_params {C} (import : string -> string -> result C) (yml : yaml) (params : list string) (r : reader C) : result (reader C) :=
  match params with
  | [] => Ok r
  | param :: rest =>
      do subd <- yget param yml;
      do mix <- is_mixture subd;
      do r <- (if (mix : bool) then add_mixture_model import param subd r else add_model import param subd r);
      add_params import yml rest r
  end.
Definition construct_model_and_prior_dicts {C} (import : string -> string -> result C) (yml : yaml) (r : reader C) : result (reader C) :=
  do b <- yin "python_file" yml;
  if (b : bool) then
    do f <- yget "python_file" yml;
    Ok (set_model "file_path" (match f with YStr s => EIid s | y => EOther y end) r)
  else
    do ps <- yiter yml;
    add_params import yml ps r.

(** parser.py:58-66 parse, after yaml.safe_load (a document that is not a mapping has no usable pop): the reader's dictionaries and the other sections
    (label, outdir, data, sampler, likelihood) with their defaults *)
Record parsed (C : Type) : Type := Parsed {
  p_reader : reader C; p_label : yaml; p_outdir : yaml; p_data : yaml; p_sampler : yaml; p_likelihood : yaml }.
Arguments Parsed {C}. Arguments p_reader {C}. Arguments p_label {C}. Arguments p_outdir {C}. Arguments p_data {C}.
Arguments p_sampler {C}. Arguments p_likelihood {C}.
Definition pop (k : string) (dflt : yaml) (d : list (string * yaml)) : yaml :=
  match assoc k d with Ok v => v | Err _ => dflt end.
Definition parse {C} (import : string -> string -> result C) (yml : yaml) (r : reader C) : result (parsed C) :=
  match yml with
  | YMap d =>
      do m <- assoc "models" d;
      do r <- construct_model_and_prior_dicts import m r;
      Ok (Parsed r (pop "label" (YStr "label") d) (pop "outdir" (YStr "./") d) (pop "data" (YMap []) d)
                 (pop "sampler" (YMap []) d) (pop "likelihood" (YMap []) d))
  | _ => Err AttributeError
  end.
