(** Vocabulary for the statements about the configuration reader (pipeline/parser.py). *)
From Verif Require Export MParser SpecConstruct.
Open Scope R_scope.
Open Scope string_scope.
Open Scope list_scope.

(** every mapping in the document has distinct keys, as Python dictionaries do *)
Fixpoint wf (y : yaml) : Prop :=
  match y with
  | YMap d => NoDup (map fst d) /\ fold_right (fun kv P => wf (snd kv) /\ P) True d
  | YList l => fold_right (fun v P => wf v /\ P) True l
  | _ => True
  end.

(** the subtree under a key (null when there is none) and the entries of a mapping *)
Definition sub (k : string) (y : yaml) : yaml := match y with YMap d => match assoc k d with Ok v => v | Err _ => YNull end | _ => YNull end.
Definition entries (y : yaml) : list (string * yaml) := match y with YMap d => d | _ => [] end.
Definition has (k : string) (y : yaml) : Prop := In k (map fst (entries y)).

(** a hyper-parameter declared with a prior distribution; with a fixed value *)
Definition has_prior (y : yaml) : bool := (mem "prior" (entries y) && mem "prior_params" (entries y))%bool.
Definition has_value (y : yaml) : bool := (negb (has_prior y) && mem "value" (entries y))%bool.

(** the hyper-parameters declared below one hyper_params mapping, under their full names *)
Definition under (prefix : string) (hyper_params : yaml) : list (string * yaml) :=
  map (fun kv => ((prefix ++ "_" ++ fst kv)%string, snd kv)) (entries hyper_params).
(** a model whose name mentions Mixture *)
Definition mixture (subd : yaml) : bool := match sub "model" subd with YStr s => contains "Mixture" s | _ => false end.
(** the number of components: the length of the first mixing parameter's concentration *)
Definition n_components (subd : yaml) : nat :=
  match entries (sub "hyper_params" (sub "mixture_dist" subd)) with
  | [] => O
  | (_, first) :: _ => match ylen (sub "concentration" (sub "prior_params" first)) with Ok n => n | Err _ => O end
  end.
(** the hyper-parameters one parameter's entry declares, in order *)
Definition declared_by (param : string) (subd : yaml) : list (string * yaml) :=
  if mixture subd then
    under (param ++ "_mixture_dist")%string (sub "hyper_params" (sub "mixture_dist" subd)) ++
    flat_map (fun i => under (param ++ "_component_" ++ dec i)%string (sub "hyper_params" (sub ("component_" ++ dec i)%string subd)))
             (seq 1 (n_components subd))
  else under param (sub "hyper_params" subd).
(** all declared hyper-parameters of a models section, in order *)
Definition declared (yml : yaml) : list (string * yaml) := flat_map (fun kv => declared_by (fst kv) (snd kv)) (entries yml).

(** a rectangular array of numbers *)
Inductive has_shape : yaml -> list nat -> Prop :=
  | shape_num x : has_shape (YNum x) []
  | shape_bool b : has_shape (YBool b) []
  | shape_empty : has_shape (YList []) (0%nat :: nil)
  | shape_list y r s : Forall (fun z => has_shape z s) (y :: r) -> has_shape (YList (y :: r)) (S (length r) :: s).
(** lists that are rectangular become arrays, everything but lists is passed on as it is *)
Definition converted (y : yaml) (v : pval) : Prop := match y with YList l => v = PArr l /\ exists s, has_shape y s | _ => v = PRaw y end.
(** what must be stored for one declaration *)
Definition prior_entry_for {C} (import : string -> string -> result C) (decl : yaml) (e : prior_entry C) : Prop :=
  if has_prior decl then
    exists name c ps, sub "prior" decl = YStr name /\ load_dist_from_string import name = Ok c /\ e = EPrior c ps /\
      Forall2 (fun kv kp => fst kv = fst kp /\ converted (snd kv) (snd kp)) (entries (sub "prior_params" decl)) ps
  else exists v, converted (sub "value" decl) v /\ e = EConst v.

(** a character that does not occur in a string *)
Definition free_of (c : ascii) (s : string) : Prop := ~ In c (list_ascii_of_string s).
(** [sub] occurs in [s] at one place only, right after [pre] *)
Definition occurs_only_after (sub pre s : string) : Prop :=
  forall u v, s = (u ++ sub ++ v)%string -> u = pre.
(** [q] extends [p] by an underscore and something *)
Definition extends (p q : string) : Prop := exists x, q = (p ++ "_" ++ x)%string.

(** the model object that must be stored for one parameter's entry *)
Definition model_entry_for {C} (import : string -> string -> result C) (subd : yaml) (e : model_entry C) : Prop :=
  exists name c, sub "model" subd = YStr name /\ load_dist_from_string import name = Ok c /\
  if mixture subd then
    let md := sub "mixture_dist" subd in
    let component i := sub ("component_" ++ dec i)%string subd in
    exists mname mc cs, sub "model" md = YStr mname /\ load_dist_from_string import mname = Ok mc /\
      Forall2 (fun i c' => exists n', sub "model" (component i) = YStr n' /\ load_dist_from_string import n' = Ok c') (seq 1 (n_components subd)) cs /\
      e = EMixture c mc (map fst (entries (sub "hyper_params" md))) cs
            (map (fun i => map fst (entries (sub "hyper_params" (component i)))) (seq 1 (n_components subd)))
  else e = ESimple c (map fst (entries (sub "hyper_params" subd))).
(** the part of a parameter's entry where model sharing is declared *)
Definition shares (subd : yaml) : Prop :=
  has "iid" (if mixture subd then sub ("component_" ++ dec (n_components subd))%string subd else subd).
