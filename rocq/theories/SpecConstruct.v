(** Vocabulary for the statements about the configuration-built model (analysis.py:359-424). *)
From Verif Require Export MConstruct Spec.
Open Scope R_scope.
Open Scope string_scope.
Open Scope list_scope.

Section Vocabulary.
Context {C D : Type}.

(** a Python dictionary never holds a key twice *)
Definition is_dict {A} (d : dict A) : Prop := NoDup (keys d).

(** the value of one configured hyper-parameter, and the sample site it leaves, if its prior can be built *)
Definition prior_gives (w : world C D) (rv : string -> sval) (k : string) (e : prior_entry C) (v : hval) (site : list (string * D)) : Prop :=
  match e with
  | EConst c => v = HConst c /\ site = []
  | EPrior c ps => exists d, w_prior w c ps = Ok d /\ v = HDraw (rv k) /\ site = (k, d) :: nil
  end.
(** [vals] gives every configured hyper-parameter its value; [sites] are the sample sites in order *)
Inductive priors_give (w : world C D) (rv : string -> sval) : dict (prior_entry C) -> dict hval -> list (string * D) -> Prop :=
  | pg_nil : priors_give w rv [] [] []
  | pg_cons k e r v s vs ss : prior_gives w rv k e v s -> priors_give w rv r vs ss ->
      priors_give w rv ((k, e) :: r) ((k, v) :: vs) (s ++ ss).

(** keyword arguments: each name p bound to the hyper-parameter called prefix_p *)
Definition keyword_args (vals : dict hval) (prefix : string) (ps : list string) (kw : dict hval) : Prop :=
  NoDup ps /\ Forall2 (fun p kv => fst kv = p /\ assoc (prefix ++ "_" ++ p)%string vals = Ok (snd kv)) ps kw.

(** the [i]-th component of the mixture configured for parameter k *)
Definition component_is (w : world C D) (vals : dict hval) (k : string) (i : nat) (c : C) (ps : list string) (d : D) : Prop :=
  exists kw, keyword_args vals (k ++ "_component_" ++ dec (S i))%string ps kw /\ w_call w c kw = Ok d.

(** [d] is the distribution configured by entry [e] of parameter [k] *)
Definition configured (w : world C D) (vals : dict hval) (grid : list num) (k : string) (e : model_entry C) (d : D) : Prop :=
  match e with
  | ESimple c ps => exists kw, keyword_args vals k ps kw /\
      (if String.eqb k "redshift" then ~ In "grid" ps /\ w_call w c (kw ++ ("grid", HGrid grid) :: nil) = Ok d else w_call w c kw = Ok d)
  | EMixture c mc mps comps cps => exists ds kw md,
      length cps = length comps /\ length ds = length comps /\
      (forall i c' ps d', nth_error comps i = Some c' -> nth_error cps i = Some ps -> nth_error ds i = Some d' -> component_is w vals k i c' ps d') /\
      keyword_args vals (k ++ "_mixture_dist")%string mps kw /\ w_call w mc kw = Ok md /\ w_mix w c md ds = Ok d
  | _ => False
  end.
(** one distribution per parameter, in the order of the configuration *)
Definition population_is (w : world C D) (vals : dict hval) (grid : list num) (models : dict (model_entry C)) (pops : dict D) : Prop :=
  Forall2 (fun ke kd => fst ke = fst kd /\ configured w vals grid (fst ke) (snd ke) (snd kd)) models pops.

(** data tables: columns of n entries / of E rows of n entries *)
Definition at1 (d : dict (list num)) (k : string) (j : nat) : num := match assoc k d with Ok l => nth j l NaN | Err _ => NaN end.
Definition at2 (d : dict arr2) (k : string) (i j : nat) : num := match assoc k d with Ok a => nth j (nth i (a_rows a) []) NaN | Err _ => NaN end.
Definition has_column (n : nat) (d : dict (list num)) (k : string) : Prop := exists l, assoc k d = Ok l /\ length l = n.
Definition has_table (E n : nat) (d : dict arr2) (k : string) : Prop :=
  exists a, assoc k d = Ok a /\ a_cols a = n /\ length (a_rows a) = E /\ Forall (fun r => length r = n) (a_rows a).

(** the log weight of one sample: sum of the log densities minus the log of the sampling prior *)
Definition log_weight (w : world C D) (pops : dict D) (x : string -> num) : num :=
  nsub (nsum (map (fun kd => w_logp w (snd kd) (x (fst kd))) pops)) (nlog (x "prior")).
Definition weights_of_injections (w : world C D) (pops : dict D) (injs : dict (list num)) (n : nat) : list num :=
  map (fun j => log_weight w pops (fun k => at1 injs k j)) (seq 0 n).
Definition weights_of_samples (w : world C D) (pops : dict D) (samps : dict arr2) (E n : nat) : arr2 :=
  Arr2 n (map (fun i => map (fun j => log_weight w pops (fun k => at2 samps k i j)) (seq 0 n)) (seq 0 E)).

(** every state of the closure: right after construction, or after any number of calls with any arguments *)
Inductive reachable (models : dict (model_entry C)) (priors : dict (prior_entry C)) : cstate D -> Prop :=
  | reach_new grid s : construct_hierarchical_model models priors = Ok (grid, s) -> reachable models priors s
  | reach_call w fl grid rv dr samps injs Ninj Nobs Tobs s :
      reachable models priors s ->
      reachable models priors (fst (call_model w fl models priors grid rv dr samps injs Ninj Nobs Tobs s)).

(** the call raised: nothing was recorded by the likelihood and an exception came out *)
Definition raises {A} (m : M A) : Prop := exists e, m = raise e.

(** the names under which an entry looks up its hyper-parameters *)
Definition looked_up (k : string) (e : model_entry C) (key : string) : Prop :=
  match e with
  | ESimple _ ps => exists p, In p ps /\ key = (k ++ "_" ++ p)%string
  | EMixture _ _ mps comps cps =>
      (exists p, In p mps /\ key = (k ++ "_mixture_dist_" ++ p)%string) \/
      (exists i ps p, (i < length comps)%nat /\ nth_error cps i = Some ps /\ In p ps /\ key = (k ++ "_component_" ++ dec (S i) ++ "_" ++ p)%string)
  | _ => False
  end.
End Vocabulary.
