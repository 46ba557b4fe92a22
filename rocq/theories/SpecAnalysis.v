(** Vocabulary for the statements about pipeline/analysis.py. *)
From Coq Require Import Permutation.
From Verif Require Export MAnalysis Spec.
Open Scope R_scope.
Open Scope string_scope.
Open Scope list_scope.

(** weights as the functions expect them: log weights (log 0 = -inf) when [log], plain weights otherwise *)
Definition enc (log : bool) (ws : list R) : list num := if log then map (fun w => nlog (Fin w)) ws else map Fin ws.
(** an admissible number of injections, as a positive int32 or a positive float *)
Definition count_pos (c : count) (N : R) : Prop :=
  (exists z, c = CInt z /\ (0 < z < 2 ^ 31)%Z /\ N = IZR z) \/ (c = CFloat (Fin N) /\ 0 < N).
Definition is_factor (s : site) : bool := match s_kind s with Factor => true | _ => false end.
(** the factor (likelihood) sites of a trace *)
Definition factors (l : list site) : list site := filter is_factor l.
(** one evaluation that recorded [sites] and handed the log-likelihood [l] to the sampler *)
Definition run (a : hl_args) (d : draws) (pe : pe_arg) (inj : list num) (sites : list site) (l : num) : Prop :=
  fst (hierarchical_likelihood a d pe inj) = sites /\ In (Site Factor "log_likelihood" (Scal l)) sites.
(** the names of the recorded sites *)
Definition names (l : list site) : list string := map s_name l.
(** the recorded sites with a given name *)
Definition called (n : string) (l : list site) : list site := filter (fun s => String.eqb (s_name s) n) l.
(** the flag combination documented as invalid *)
Definition bad_flags (a : hl_args) : bool := (max_variance_cut a && (marginalize_selection a || min_neff_cut a))%bool.
(** per-event weights: at least one sample each, non-negative, not all zero *)
Definition good_rows (n : nat) (rows : list (list R)) : Prop :=
  (0 < n)%nat /\ Forall (fun ws => length ws = n /\ nonneg_list ws /\ 0 < Rlsum ws) rows.
(** valid inputs: one population, [rows] the per-event weights and [inj] the found-injection weights *)
Definition value_hyps (a : hl_args) (n : nat) (N : R) (rows : list (list R)) (inj : list R) : Prop :=
  categorical a = false /\ good_rows n rows /\ rows <> [] /\ Nobs a = length rows /\
  nonneg_list inj /\ 0 < Rlsum inj /\ INR (length inj) < N /\ total_inj a = CFloat (Fin N) /\
  (reconstruct_rate a = true -> surveyed_hypervolume a <> None) /\ bad_flags a = false.
(** the same weights up to the order of the events and of the samples within each event *)
Definition same_weights (w w' : list (list num)) : Prop := exists mid, Permutation w mid /\ Forall2 (@Permutation num) mid w'.
(** the same call with both cuts switched off *)
Definition without_cuts (a : hl_args) : hl_args :=
  HL (total_inj a) (Nobs a) (Tobs a) (surveyed_hypervolume a) (categorical a) (marginal_qs a) (indv_weights a) (reconstruct_rate a)
     (marginalize_selection a) false false (posterior_predictive_check a) (param_names a) (pedata a) (injdata a) (m2min a) (m1min a) (mmax a) (logw a).
(** the mass cuts: m1min <= mass_1 <= mmax and m2min <= mass_1 * mass_ratio *)
Definition passes (c1 c2 cm m q : R) : Prop := c1 <= m <= cm /\ c2 <= m * q.
(** [vs] are the weights with those outside the cuts set to zero *)
Definition kept_weights (c1 c2 cm : R) (ws ms qs vs : list R) : Prop :=
  length vs = length ws /\
  forall j, (j < length ws)%nat -> (passes c1 c2 cm (nth j ms 0) (nth j qs 0) -> nth j vs 0 = nth j ws 0) /\
                                 (~ passes c1 c2 cm (nth j ms 0) (nth j qs 0) -> nth j vs 0 = 0).
(** index [j] is the one a uniform [u] selects with probability proportional to the weights: 1 - u lies in the
    j-th piece, of length vs_j / sum, of the unit interval *)
Definition inverse_cdf (vs : list R) (u : R) (j : nat) : Prop :=
  Rlsum (firstn j vs) < (1 - u) * Rlsum vs <= Rlsum (firstn (S j) vs).
(** data for a predictive check: [rows] the per-event weights, [m1] and [q] the masses and mass ratios of the
    samples, [iws], [im1], [iq] the same for the found injections, [ps] the parameters to record *)
Definition ppc_data (a : hl_args) (n : nat) (rows m1 q : list (list R)) (iws im1 iq : list R) (c1 c2 cm : R)
  (ps : list string) (pe : list (string * arr2)) (ij : list (string * list num)) : Prop :=
  param_names a = Some ps /\ pedata a = Some pe /\ injdata a = Some ij /\
  m1min a = Fin c1 /\ m2min a = Fin c2 /\ mmax a = Fin cm /\
  assoc "mass_1" pe = Ok (Arr2 n (map (map Fin) m1)) /\ assoc "mass_ratio" pe = Ok (Arr2 n (map (map Fin) q)) /\
  assoc "mass_1" ij = Ok (map Fin im1) /\ assoc "mass_ratio" ij = Ok (map Fin iq) /\
  length rows = Nobs a /\ length m1 = Nobs a /\ length q = Nobs a /\
  Forall (fun r => length r = n) rows /\ Forall (fun r => length r = n) m1 /\ Forall (fun r => length r = n) q /\
  length im1 = length iws /\ length iq = length iws /\ Forall nonneg_list rows /\ nonneg_list iws.
(** [subs]: one array of weights per sub-population, non-negative and adding up to the weights [rows] of the whole population *)
Definition sub_weights (N n : nat) (rows : list (list R)) (subs : list (list (list R))) : Prop :=
  Forall (fun w => length w = N /\ Forall (fun r => length r = n /\ nonneg_list r) w) subs /\
  forall ev j, (ev < N)%nat -> (j < n)%nat -> nth j (nth ev rows []) 0 = Rlsum (map (fun w => nth j (nth ev w []) 0) subs).
