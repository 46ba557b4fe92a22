(** Vocabulary for the statements about the evaluations of a configured run. *)
From Verif Require Export MEvaluate SpecRun SpecOptions SpecEnd.
Open Scope R_scope.
Open Scope string_scope.
Open Scope list_scope.

(** the j-th posterior sample of a parameter of one event, the j-th found injection *)
Definition sample_of (c : catalog) (ev p : string) (j : nat) : num :=
  match assoc ev (ct_pe c) with Ok e => match assoc p e with Ok l => nth j l NaN | Err _ => NaN end | Err _ => NaN end.
Definition injection_of (inj : dict ival) (p : string) (j : nat) : num := match assoc p inj with Ok (IArray l) => nth j l NaN | _ => NaN end.
(** the columns of the injections all have n entries *)
Definition injection_columns (params : list string) (n : nat) (inj : dict ival) : Prop :=
  forall p, p = "prior" \/ In p params -> p <> "total_generated" /\ p <> "analysis_time" /\ exists l, assoc p inj = Ok (IArray l) /\ length l = n.
(** what the tables handed to the likelihood hold *)
Definition holds_samples (c : catalog) (params : list string) (n : nat) (samps : dict arr2) : Prop :=
  forall p, p = "prior" \/ In p params -> exists a, assoc p samps = Ok a /\ a_cols a = n /\ a_rows a = map (fun ev => map (sample_of c ev p) (seq 0 n)) (ct_names c).
Definition holds_injections (inj : dict ival) (params : list string) (n : nat) (injs : dict (list num)) : Prop :=
  forall p, p = "prior" \/ In p params -> assoc p injs = Ok (map (injection_of inj p) (seq 0 n)).
