(** Vocabulary for the statements about bin/gwinferno_run_from_config.py. *)
From Verif Require Export MRun.
From Coq Require Import List.
Import ListNotations.
Open Scope R_scope.
Open Scope string_scope.
Open Scope list_scope.

(** the samples of parameter p of event ev *)
Definition samples_are (c : catalog) (ev p : string) (v : list num) : Prop := exists e, assoc ev (ct_pe c) = Ok e /\ assoc p e = Ok v.
(** spins are asked for when the model has spin parameters *)
Definition spin_model (params : list string) (b : bool) : Prop := b = true <-> In "a_1" params \/ In "chi_eff" params.
(** all events have the same number of samples of all parameters *)
Definition rectangular (c : catalog) (params : list string) (n : nat) : Prop :=
  ct_names c <> [] /\ forall ev p, In ev (ct_names c) -> p = "mass_1" \/ p = "prior" \/ In p params -> exists v, samples_are c ev p v /\ length v = n.
Definition has_injections (params : list string) (inj : dict ival) : Prop :=
  forall p, p = "prior" \/ In p params -> p <> "total_generated" /\ p <> "analysis_time" /\ exists v, assoc p inj = Ok v.
(** what the model is given *)
Definition arrays_of (c : catalog) (inj : dict ival) (params : list string) (r : inputs) : Prop :=
  keys (in_pe r) = params ++ "prior" :: nil /\ keys (in_inj r) = params ++ "prior" :: nil /\
  in_nobs r = length (ct_names c) /\ assoc "total_generated" inj = Ok (in_ninj r) /\ assoc "analysis_time" inj = Ok (in_tobs r) /\
  (forall p, p = "prior" \/ In p params -> exists rows v, assoc p (in_pe r) = Ok rows /\ Forall2 (fun ev row => samples_are c ev p row) (ct_names c) rows /\
      assoc p (in_inj r) = Ok v /\ assoc p inj = Ok v).
