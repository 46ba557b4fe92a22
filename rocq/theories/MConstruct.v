(** gwinferno/pipeline/analysis.py:359-424: the model built from a configuration. *)
From Verif Require Export MParser.
Open Scope R_scope.
Open Scope string_scope.
Open Scope list_scope.

(** A hyper-parameter value inside the model: a configured constant, the value drawn at a sample site,
    the prior object itself (when its constructor raised AttributeError), or the redshift grid. *)
Inductive hval : Type := HConst (v : pval) | HDraw (v : sval) | HPrior (key : string) | HGrid (l : list num).

(** The external classes: [w_prior c kw] and [w_call c kw] call class [c] with keyword arguments,
    [w_mix c d ds] builds a mixture.  [w_logp d x] is d.log_prob at one point (log_prob of an array is
    taken elementwise: the distributions' batch shape is empty), [w_norm d] the attribute d.norm. *)
Record world (C D : Type) : Type := World {
  w_prior : C -> dict pval -> result D;
  w_call : C -> dict hval -> result D;
  w_mix : C -> D -> list D -> result D;
  w_logp : D -> num -> num;
  w_norm : D -> option num }.
Arguments World {C D}. Arguments w_prior {C D}. Arguments w_call {C D}. Arguments w_mix {C D}.
Arguments w_logp {C D}. Arguments w_norm {C D}.

(** The variables captured by the closure [model] (analysis.py:368-369), which every call updates, and the
    sites numpyro.sample has recorded. *)
Record cstate (D : Type) : Type := CState { c_hyper : dict (option hval); c_pops : dict (option D); c_sites : list (string * D) }.
Arguments CState {D}. Arguments c_hyper {D}. Arguments c_pops {D}. Arguments c_sites {D}.

(** A step of the model: it may update the state and then return or raise. *)
Definition Step (D A : Type) : Type := cstate D -> cstate D * result A.
Definition s_ret {D A} (a : A) : Step D A := fun s => (s, Ok a).
Definition s_raise {D A} (e : exn) : Step D A := fun s => (s, Err e).
Definition s_bind {D A B} (m : Step D A) (f : A -> Step D B) : Step D B :=
  fun s => let '(s', r) := m s in match r with Ok a => f a s' | Err e => (s', Err e) end.
Definition s_lift {D A} (r : result A) : Step D A := fun s => (s, r).
Definition s_get {D A} (f : cstate D -> result A) : Step D A := fun s => (s, f s).
Definition s_put {D} (f : cstate D -> cstate D) : Step D unit := fun s => (f s, Ok tt).
Notation "'step' x '<-' m ';' k" := (s_bind m (fun x => k)) (at level 200, x pattern, m at level 100, k at level 200).
Fixpoint s_each {D A B} (f : A -> Step D B) (l : list A) : Step D (list B) :=
  match l with [] => s_ret [] | a :: r => step b <- f a; step bs <- s_each f r; s_ret (b :: bs) end.

(** jnp.linspace(1e-9, prior_dict["redshift_maximum"], 1000) (analysis.py:371-372): only a plain number
    is modelled as the maximum; a prior object or a string raises TypeError, an array is not modelled. *)
Definition z_grid {C} (priors : dict (prior_entry C)) : result (list num) :=
  do m <- assoc "redshift_maximum" priors;
  match m with
  | EConst (PRaw (YNum x)) => Ok (nlinspace (Fin (/ 10 ^ 9)) x 1000)
  | EConst (PArr _) => Err OtherError
  | _ => Err TypeError
  end.

(** analysis.py:376-379, one prior: numpyro.sample(k, v.dist( **v.params)); AttributeError keeps [v] *)
Definition sample_prior {C D} (w : world C D) (rv : string -> sval) (kv : string * prior_entry C) : Step D unit :=
  let set v s := CState (dset (fst kv) (Some v) (c_hyper s)) (c_pops s) (c_sites s) in
  match snd kv with
  | EConst v => s_put (set (HConst v))
  | EPrior c ps =>
      match w_prior w c ps with
      | Ok d => s_put (fun s => let s := set (HDraw (rv (fst kv))) s in
                                CState (c_hyper s) (c_pops s) (c_sites s ++ (fst kv, d) :: nil))
      | Err AttributeError => s_put (set (HPrior (fst kv)))
      | Err e => s_raise e
      end
  end.

(** hyper_params[key]: after the loop over the priors no entry is None (a None would be passed on by
    Python; it cannot occur, see hyper_filled in PConstruct) *)
Definition hyper {D} (key : string) : Step D hval :=
  s_get (fun s => match assoc key (c_hyper s) with Ok (Some v) => Ok v | Ok None => Err OtherError | Err e => Err e end).

(** {p: hyper_params[f"{prefix}_{p}"] for p in ps} *)
Definition lookups {D} (prefix : string) (ps : list string) : Step D (dict hval) :=
  step vs <- s_each (fun p => hyper (prefix ++ "_" ++ p)%string) ps;
  s_ret (fold_left (fun d kv => dset (fst kv) (snd kv) d) (combine ps vs) []).

Definition set_pop {D} (k : string) (d : option D) : Step D unit :=
  s_put (fun s => CState (c_hyper s) (dset k d (c_pops s)) (c_sites s)).

(** analysis.py:383-386 *)
Definition build_component {C D} (w : world C D) (k : string) (comps : list C) (cps : list (list string)) (i : nat) : Step D D :=
  step c <- s_lift (match nth_error comps i with Some c => Ok c | None => Err IndexError end);
  step ps <- s_lift (match nth_error cps i with Some ps => Ok ps | None => Err IndexError end);
  step kw <- lookups (k ++ "_component_" ++ dec (S i))%string ps;
  s_lift (w_call w c kw).

(** analysis.py:381-397, one entry of model_dict; the iid mapping is threaded through *)
Definition build_entry {C D} (w : world C D) (grid : list num) (k : string) (e : model_entry C) (iid : dict string) : Step D (dict string) :=
  match e with
  | EMixture c mc mps comps cps =>
      step ds <- s_each (build_component w k comps cps) (seq 0 (length comps));
      step kw <- lookups (k ++ "_mixture_dist")%string mps;
      step md <- s_lift (w_call w mc kw);
      step d <- s_lift (w_mix w c md ds);
      step _ <- set_pop k (Some d);
      s_ret iid
  | ESimple c ps =>
      step kw <- lookups k ps;
      let kw := if String.eqb k "redshift" then dset "grid" (HGrid grid) kw else kw in
      step d <- s_lift (w_call w c kw);
      step _ <- set_pop k (Some d);
      s_ret iid
  | EIid v => s_ret (dset v k iid)
  | EOther _ => s_raise ValueError
  end.
Fixpoint build_entries {C D} (w : world C D) (grid : list num) (models : dict (model_entry C)) (iid : dict string) : Step D (dict string) :=
  match models with
  | [] => s_ret iid
  | (k, e) :: r => step iid <- build_entry w grid k e iid; build_entries w grid r iid
  end.

(** analysis.py:398-399 *)
Definition share {D} (sp : string * string) : Step D unit :=
  step d <- s_get (fun s => assoc (snd sp) (c_pops s));
  set_pop (fst sp) d.

(** pop_models[k]; None has neither log_prob nor norm (AttributeError) *)
Definition pop_of {D} (k : string) : Step D D :=
  s_get (fun s => match assoc k (c_pops s) with Ok (Some d) => Ok d | Ok None => Err AttributeError | Err e => Err e end).

(** jnp.sum(jnp.array([...]), axis=0) - jnp.log(prior): the stacked arrays must have one shape; broadcasting
    of the prior against another shape is not modelled (ShapeError) *)
Definition sum1 (n : nat) (ls : list (list num)) : list num := fold_right (map2 nadd) (repeat (Fin 0) n) ls.
Definition weights1 (prior : list num) (ls : list (list num)) : result (list num) :=
  if forallb (fun l => Nat.eqb (length l) (length prior)) ls
  then Ok (map2 nsub (sum1 (length prior) ls) (map nlog prior)) else Err ShapeError.
Definition weights2 (prior : arr2) (ls : list arr2) : result arr2 :=
  if forallb (fun l => (Nat.eqb (a_cols l) (a_cols prior) && Nat.eqb (length (a_rows l)) (length (a_rows prior)))%bool) ls
  then Ok (Arr2 (a_cols prior)
             (map2 (map2 nsub)
                (fold_right (map2 (map2 nadd)) (map (map (fun _ => Fin 0)) (a_rows prior)) (map a_rows ls))
                (map (map nlog) (a_rows prior))))
  else Err ShapeError.
Definition amap (f : num -> num) (a : arr2) : arr2 := Arr2 (a_cols a) (map (map f) (a_rows a)).

(** analysis.py:374-402 and 410: everything up to the call of hierarchical_likelihood:
    (pe_weights, inj_weights, surveyed hypervolume) *)
Definition population {C D} (w : world C D) (rv : string -> sval) (models : dict (model_entry C)) (priors : dict (prior_entry C))
  (grid : list num) (samps : dict arr2) (injs : dict (list num)) : Step D (arr2 * list num * num) :=
  step _ <- s_each (sample_prior w rv) priors;
  step iid <- build_entries w grid models [];
  step _ <- s_each share iid;
  step ips <- s_each (fun k => step d <- pop_of k; step x <- s_lift (assoc k injs); s_ret (map (w_logp w d) x)) (keys models);
  step ip <- s_lift (assoc "prior" injs);
  step iw <- s_lift (weights1 ip ips);
  step pps <- s_each (fun k => step d <- pop_of k; step x <- s_lift (assoc k samps); s_ret (amap (w_logp w d) x)) (keys models);
  step pp <- s_lift (assoc "prior" samps);
  step pw <- s_lift (weights2 pp pps);
  step z <- pop_of "redshift";
  step vt <- s_lift (match w_norm w z with Some v => Ok v | None => Err AttributeError end);
  s_ret (pw, iw, vt).

(** The keyword arguments of construct_hierarchical_model (analysis.py:359-366) *)
Record flags : Type := Flags { f_marg : bool; f_neff : bool; f_var : bool; f_ppc : bool }.

(** analysis.py:404-422: the arguments of hierarchical_likelihood *)
Definition likelihood_args {C} (fl : flags) (models : dict (model_entry C)) (samps : dict arr2) (injs : dict (list num))
  (Ninj : count) (Nobs : nat) (Tobs : num) (vt : num) : hl_args :=
  HL Ninj Nobs Tobs (Some vt) false false [] true (f_marg fl) (f_neff fl) (f_var fl) (f_ppc fl)
     (Some (keys models)) (Some samps) (Some injs) (Fin 2) (Fin 2) (Fin 100) true.

(** One call of the constructed model: the closure state after it, and the sites recorded by
    hierarchical_likelihood with its result (or the exception) *)
Definition call_model {C D} (w : world C D) (fl : flags) (models : dict (model_entry C)) (priors : dict (prior_entry C)) (grid : list num)
  (rv : string -> sval) (dr : draws) (samps : dict arr2) (injs : dict (list num)) (Ninj : count) (Nobs : nat) (Tobs : num)
  (s : cstate D) : cstate D * M (option num) :=
  let '(s, r) := population w rv models priors grid samps injs (CState (c_hyper s) (c_pops s) []) in
  (s, match r with
      | Err e => raise e
      | Ok (pw, iw, vt) => hierarchical_likelihood (likelihood_args fl models samps injs Ninj Nobs Tobs vt) dr (PEOne pw) iw
      end).

(** analysis.py:367-372: construction (the grid, when there is a redshift model) and the initial closure state *)
Definition construct_hierarchical_model {C D} (models : dict (model_entry C)) (priors : dict (prior_entry C)) : result (list num * cstate D) :=
  do grid <- (if mem "redshift" models then z_grid priors else Ok []);
  Ok (grid, CState (map (fun k => (k, None)) (keys priors)) (map (fun k => (k, None)) (keys models)) []).
