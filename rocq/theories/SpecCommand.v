(** Vocabulary for the command line: a list of settings, written out as arguments, and what each attribute should be. *)
From Verif Require Export MCommand SpecSetup.
Open Scope R_scope.
Open Scope string_scope.
Open Scope list_scope.

(** one setting: an option written in full, given as a flag, as two arguments, or as --option=value *)
Inductive setting : Type := Flag (name : string) | Apart (name v : string) | Joined (name v : string)
  | ShortFlag (p name : string) | ShortApart (p name v : string) | ShortJoined (p name v : string).
Definition written (s : setting) : list string :=
  match s with Flag n | ShortFlag n _ => n :: nil | Apart n v | ShortApart n _ v => [n; v] | Joined n v | ShortJoined n _ v => (n ++ "=" ++ v)%string :: nil end.
Definition s_option (s : setting) : string := match s with Flag n | Apart n _ | Joined n _ | ShortFlag _ n | ShortApart _ n _ | ShortJoined _ n _ => n end.
Definition s_text (s : setting) : option string := match s with Flag _ | ShortFlag _ _ => None | Apart _ v | Joined _ v | ShortApart _ _ v | ShortJoined _ _ v => Some v end.
Definition s_apart (s : setting) : option string := match s with Apart _ v | ShortApart _ _ v => Some v | _ => None end.
Definition s_short (s : setting) : option string := match s with ShortFlag p _ | ShortApart p _ _ | ShortJoined p _ _ => Some p | _ => None end.
(** "-12", "-0.5", "-.5" *)
Definition digits (s : string) : Prop := Forall (fun c => In c (list_ascii_of_string "0123456789")) (list_ascii_of_string s).
Definition negative_number (v : string) : Prop :=
  exists d1 d2, digits d1 /\ digits d2 /\ ((v = "-" ++ d1 /\ d1 <> "") \/ (v = "-" ++ d1 ++ "." ++ d2 /\ d2 <> ""))%string.
(** the beginning of exactly one option *)
Definition abbreviates (opts : list option_decl) (p n : string) : Prop :=
  (exists r, p = "--" ++ r /\ r <> "")%string /\ contains "=" p = false /\ forall o, In o opts -> (String.prefix p (o_flag o) = true <-> o_flag o = n).
(** declared options, not --help; flags take no value, the others take one; a value written apart does not start with a dash, unless it is a
    negative number; the name may be shortened to the beginning of no other option *)
Definition allowed (opts : list option_decl) (s : setting) : Prop :=
  exists o, In o opts /\ o_flag o = s_option s /\ o_type o <> THelp /\ (o_type o = TFlag <-> s_text s = None) /\
    (forall v, s_apart s = Some v -> String.prefix "-" v = false \/ negative_number v) /\ (forall p, s_short s = Some p -> abbreviates opts p (s_option s)).
(** the value an option gets from a text (None for a flag), per its declared type *)
Inductive reads (py_int : string -> option Z) (py_float : string -> option num) : atype -> option string -> arg -> Prop :=
  | reads_str v : reads py_int py_float TStr (Some v) (AStr v)
  | reads_int v z : py_int v = Some z -> reads py_int py_float TInt (Some v) (AInt z)
  | reads_float v x : py_float v = Some x -> reads py_int py_float TFloat (Some v) (AFloat x)
  | reads_bool v : reads py_int py_float TBool (Some v) (ABool (if String.eqb v "" then false else true))
  | reads_flag : reads py_int py_float TFlag None (ABool true).
(** what the attribute of option [o] should be after [settings]: the value of the last setting for it, else the default *)
Fixpoint last_for (name : string) (settings : list setting) : option setting :=
  match settings with
  | [] => None
  | s :: r => match last_for name r with Some s' => Some s' | None => if String.eqb (s_option s) name then Some s else None end
  end.
Definition attribute_is py_int py_float (settings : list setting) (o : option_decl) (a : arg) : Prop :=
  match last_for (o_flag o) settings with
  | Some s => reads py_int py_float (o_type o) (s_text s) a
  | None => a = o_default o
  end.
(** options are declared once, with a long name that has no "=" in it, and under an attribute name of their own *)
Definition long_name (n : string) : Prop := String.prefix "--" n = true /\ contains "=" n = false /\ n <> "--".
Definition declared (opts : list option_decl) : Prop :=
  NoDup (map o_flag opts) /\ NoDup (map o_dest opts) /\ Forall (fun o => long_name (o_flag o)) opts.
Definition spline_options : list string := ["--m-nsplines"; "--q-nsplines"; "--a-nsplines"; "--tilt-nsplines"; "--z-nsplines"].
