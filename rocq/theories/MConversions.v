(** Model of gwinferno/preprocess/conversions.py. *)
From Verif Require Export Num Arr.
Open Scope num_scope.

(** conversions.py:8-33 *)
Definition chieff (q a1 a2 ct1 ct2 : num) : num := (a1 * ct1 + q * a2 * ct2) / (Fin 1 + q).

(** conversions.py:36-62 *)
Definition chip (q a1 a2 ct1 ct2 : num) : num :=
  let sint1 := nsqrt (Fin 1 - npowi ct1 2) in
  let sint2 := nsqrt (Fin 1 - npowi ct2 2) in
  nmax (a1 * sint1) ((Fin 3 + Fin 4 * q) / (Fin 4 + Fin 3 * q) * q * a2 * sint2).

(** conversions.py:65-85 *)
Definition mu_var_from_alpha_beta (alpha beta xmax : num) : num * num :=
  let mu := alpha / (alpha + beta) * xmax in
  let var := alpha * beta / (npowi (alpha + beta) 2 * (alpha + beta + Fin 1)) * npowi xmax 2 in
  (mu, var).

(** conversions.py:108-109, the two output expressions after rescaling *)
Definition alpha_expr (mu var : num) : num := (npowi mu 2 * (Fin 1 - mu) - mu * var) / var.
Definition beta_expr (mu var : num) : num := (mu * npowi (Fin 1 - mu) 2 - (Fin 1 - mu) * var) / var.

(** conversions.py:88-110 on scalars (or immutable arrays, elementwise) *)
Definition alpha_beta_from_mu_var (mu var xmax : num) : num * num :=
  let mu := mu / xmax in
  let var := var / npowi xmax 2 in
  (alpha_expr mu var, beta_expr mu var).

(** The same function on Python values: an argument is either an immutable value (scalar, JAX array)
    or a reference to a mutable numpy array in the heap.  [mu /= xmax] (line 106) and
    [var /= xmax**2] (line 107) update numpy arrays in place. *)
Definition heap := nat -> list num.
Inductive pyarr := Imm (l : list num) | Ref (p : nat).
Definition hupd (h : heap) (p : nat) (l : list num) : heap := fun p' => if Nat.eqb p' p then l else h p'.
Definition readarr (h : heap) (v : pyarr) : list num := match v with Imm l => l | Ref p => h p end.
Definition idiv (h : heap) (v : pyarr) (k : num) : heap * pyarr :=
  match v with
  | Imm l => (h, Imm (map (fun x => x / k) l))
  | Ref p => (hupd h p (map (fun x => x / k) (h p)), Ref p)
  end.
Definition alpha_beta_from_mu_var_heap (h : heap) (mu var : pyarr) (xmax : num) : heap * (list num * list num) :=
  let '(h, mu) := idiv h mu xmax in
  let '(h, var) := idiv h var (npowi xmax 2) in
  (h, (map2 alpha_expr (readarr h mu) (readarr h var), map2 beta_expr (readarr h mu) (readarr h var))).
