(** Vocabulary for the statements about the likelihood section of a configuration. *)
From Verif Require Export MOptions SpecParser.
Open Scope R_scope.
Open Scope string_scope.
Open Scope list_scope.

(** the options of the likelihood section *)
Definition option_names : list string := ["marginalize_selection"; "min_neff_cut"; "max_variance_cut"; "posterior_predictive_check"].
(** a value YAML reads as false: no, 0, the empty string, list or mapping, nothing *)
Definition off (y : yaml) : Prop := y = YNull \/ y = YBool false \/ y = YNum (Fin 0) \/ y = YStr "" \/ y = YList [] \/ y = YMap [].
(** the choice of one option: what the section says, or the default *)
Definition chosen (section : yaml) (key : string) (dflt b : bool) : Prop :=
  (has key section -> (b = false <-> off (sub key section))) /\ (~ has key section -> b = dflt).
(** the section that applies: that of the document, or an empty one *)
Definition likelihood_section (doc section : yaml) : Prop :=
  (has "likelihood" doc -> sub "likelihood" doc = section) /\ (~ has "likelihood" doc -> section = YMap []).
Definition is_section (section : yaml) : Prop := exists d, section = YMap d /\ forall k, In k (map fst d) -> In k option_names.
