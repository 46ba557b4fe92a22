(** Configurations the reader (pipeline/parser.py) must accept. *)
From Verif Require Export SpecParser.
Open Scope string_scope.
Open Scope list_scope.

(** a class named by a path that can be imported *)
Definition named {C} (import : string -> string -> result C) (y : yaml) : Prop := exists s c, y = YStr s /\ load_dist_from_string import s = Ok c.
(** anything but a ragged or non-numeric list *)
Definition storable (y : yaml) : Prop := match y with YList _ => exists s, has_shape y s | _ => True end.
(** a hyper-parameter: a prior with its parameters, a value, or neither *)
Definition good_declaration {C} (import : string -> string -> result C) (decl : yaml) : Prop :=
  (exists d, decl = YMap d) /\
  (has_prior decl = true -> named import (sub "prior" decl) /\ exists ps, sub "prior_params" decl = YMap ps /\ Forall (fun kv => storable (snd kv)) ps) /\
  (has_value decl = true -> storable (sub "value" decl)).
(** a model with its hyper-parameters *)
Definition good_model {C} (import : string -> string -> result C) (y : yaml) : Prop :=
  named import (sub "model" y) /\ exists hps, sub "hyper_params" y = YMap hps /\ Forall (fun kv => good_declaration import (snd kv)) hps.
(** if model sharing is declared, it names a parameter *)
Definition good_sharing (y : yaml) : Prop := has "iid" y -> exists s, sub "shared_parameter" (sub "iid" y) = YStr s.
(** one parameter: a model, or a mixture with a mixing distribution and every component it counts *)
Definition good_parameter {C} (import : string -> string -> result C) (subd : yaml) : Prop :=
  if mixture subd then
    named import (sub "model" subd) /\ good_model import (sub "mixture_dist" subd) /\ (1 <= n_components subd)%nat /\
    (forall i, (1 <= i <= n_components subd)%nat -> good_model import (sub ("component_" ++ dec i)%string subd)) /\
    good_sharing (sub ("component_" ++ dec (n_components subd))%string subd)
  else good_model import subd /\ good_sharing subd.
