(** Vocabulary for model sharing in a models section. *)
From Verif Require Export SpecParser.
Open Scope string_scope.
Open Scope list_scope.

(** the part of a parameter's entry where sharing is declared: the entry itself, or a mixture's last component *)
Definition sharing_part (subd : yaml) : yaml := if mixture subd then sub ("component_" ++ dec (n_components subd))%string subd else subd.
(** the parameter an entry shares its model with, if any *)
Definition shared_with (subd : yaml) : option string :=
  if mem "iid" (entries (sharing_part subd)) then
    match sub "shared_parameter" (sub "iid" (sharing_part subd)) with YStr s => Some s | _ => None end
  else None.
(** the parameters one entry defines a model for *)
Definition modelled_by (kv : string * yaml) : list string := fst kv :: match shared_with (snd kv) with Some s => s :: nil | None => nil end.
