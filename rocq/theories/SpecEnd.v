(** From a configuration document to the population it configures, without reference to the reader's dictionaries. *)
From Verif Require Export SpecParser.
Open Scope R_scope.
Open Scope string_scope.
Open Scope list_scope.

Section Vocabulary.
Context {C D : Type} (import : string -> string -> result C) (w : world C D).

(** the value a declared hyper-parameter takes inside the model (the one drawn at the site of its name, or the configured
    constant), and the sample site it leaves *)
Definition declared_gives (rv : string -> sval) (k : string) (decl : yaml) (v : hval) (site : list (string * D)) : Prop :=
  if has_prior decl then
    exists name c ps d, sub "prior" decl = YStr name /\ load_dist_from_string import name = Ok c /\
      Forall2 (fun kv kp => fst kv = fst kp /\ converted (snd kv) (snd kp)) (entries (sub "prior_params" decl)) ps /\
      w_prior w c ps = Ok d /\ v = HDraw (rv k) /\ site = (k, d) :: nil
  else exists c, converted (sub "value" decl) c /\ v = HConst c /\ site = [].
Inductive values_of (rv : string -> sval) : list (string * yaml) -> dict hval -> list (string * D) -> Prop :=
  | vo_nil : values_of rv [] [] []
  | vo_cons k decl r v s vs ss : declared_gives rv k decl v s -> values_of rv r vs ss -> values_of rv ((k, decl) :: r) ((k, v) :: vs) (s ++ ss).

(** the distribution object configured by the entry [subd] of parameter [param] *)
Definition model_of (vals : dict hval) (grid : list num) (param : string) (subd : yaml) (d : D) : Prop :=
  exists name c, sub "model" subd = YStr name /\ load_dist_from_string import name = Ok c /\
  if mixture subd then
    let md := sub "mixture_dist" subd in
    let component i := sub ("component_" ++ dec i)%string subd in
    exists mname mc mkw mixing ds, sub "model" md = YStr mname /\ load_dist_from_string import mname = Ok mc /\
      keyword_args vals (param ++ "_mixture_dist")%string (map fst (entries (sub "hyper_params" md))) mkw /\ w_call w mc mkw = Ok mixing /\
      Forall2 (fun i d' => exists n' c' kw, sub "model" (component i) = YStr n' /\ load_dist_from_string import n' = Ok c' /\
                 keyword_args vals (param ++ "_component_" ++ dec i)%string (map fst (entries (sub "hyper_params" (component i)))) kw /\ w_call w c' kw = Ok d')
              (seq 1 (n_components subd)) ds /\
      w_mix w c mixing ds = Ok d
  else
    exists kw, keyword_args vals param (map fst (entries (sub "hyper_params" subd))) kw /\
      if String.eqb param "redshift" then ~ In "grid" (map fst (entries (sub "hyper_params" subd))) /\ w_call w c (kw ++ ("grid", HGrid grid) :: nil) = Ok d
      else w_call w c kw = Ok d.
End Vocabulary.
