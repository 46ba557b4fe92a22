(** Array operations (jax.numpy) on lists, as used throughout /repo/gwinferno. *)
From Verif Require Export Num.

(** jnp.sum: summation order is irrelevant for exact arithmetic (nadd is associative and
    commutative, see NumFacts). *)
Fixpoint nsum (l : list num) : num :=
  match l with [] => Fin 0 | x :: r => nadd x (nsum r) end.

Fixpoint map2 {A B C} (f : A -> B -> C) (xs : list A) (ys : list B) : list C :=
  match xs, ys with x :: xs', y :: ys' => f x y :: map2 f xs' ys' | _, _ => [] end.

(** jnp.max / jnp.min of a non-empty array (NaN propagates). *)
Definition nmaxl (x : num) (l : list num) : num := fold_left nmax l x.
Definition nminl (x : num) (l : list num) : num := fold_left nmin l x.

(** jnp.trapezoid(y, x) = 0.5 * sum((x[1:] - x[:-1]) * (y[1:] + y[:-1])) *)
Fixpoint ntrapz_terms (ys xs : list num) : list num :=
  match ys, xs with
  | y0 :: ((y1 :: _) as ys'), x0 :: ((x1 :: _) as xs') =>
      nmul (nsub x1 x0) (nadd y1 y0) :: ntrapz_terms ys' xs'
  | _, _ => []
  end.
Definition ntrapz (ys xs : list num) : num := nmul (Fin (1/2)) (nsum (ntrapz_terms ys xs)).

(** jnp.diff(x) *)
Fixpoint ndiff (l : list num) : list num :=
  match l with a :: ((b :: _) as r) => nsub b a :: ndiff r | _ => [] end.

(** jnp.dot of two vectors / einsum "i,i" *)
Definition ndot (xs ys : list num) : num := nsum (map2 nmul xs ys).

(** jnp.linspace(a, b, n): a + i * (b - a) / (n - 1) (a single point a when n = 1). *)
Definition rlinspace (a b : R) (n : nat) : list R :=
  map (fun i => a + INR i * ((b - a) / INR (n - 1))) (seq 0 n).

(** jnp.interp(x, xp, fp) on finite tables: clamps to the end values outside the table
    (jax._src.numpy.lax_numpy._interp with left=right=None, increasing xp). *)
Fixpoint rinterp_in (x : R) (xp fp : list R) : R :=
  match xp, fp with
  | x0 :: ((x1 :: _) as xp'), f0 :: ((f1 :: _) as fp') =>
      if Rltb x x1 then f0 + (x - x0) / (x1 - x0) * (f1 - f0)
      else rinterp_in x xp' fp'
  | _, f0 :: _ => f0
  | _, _ => 0
  end.
Definition rinterp (x : R) (xp fp : list R) : R :=
  match xp, fp with
  | x0 :: _, f0 :: _ => if Rltb x x0 then f0 else rinterp_in x xp fp
  | _, _ => 0
  end.

(** jnp.linspace(a, b, n) with possibly non-finite ends. *)
Definition nlinspace (a b : num) (n : nat) : list num :=
  map (fun i => nadd a (nmul (Fin (INR i)) (ndiv (nsub b a) (Fin (INR (n - 1)))))) (seq 0 n).

(** np.interp / jnp.interp with possibly non-finite data: NaN queries give NaN. *)
Fixpoint ninterp_in (x : num) (xp fp : list num) : num :=
  match xp, fp with
  | x0 :: ((x1 :: _) as xp'), f0 :: ((f1 :: _) as fp') =>
      if nlt x x1 then nadd f0 (nmul (ndiv (nsub x x0) (nsub x1 x0)) (nsub f1 f0))
      else ninterp_in x xp' fp'
  | _, f0 :: _ => f0
  | _, _ => Fin 0
  end.
Definition ninterp (x : num) (xp fp : list num) : num :=
  if nisnan x then NaN else
  match xp, fp with
  | x0 :: _, f0 :: _ => if nlt x x0 then f0 else ninterp_in x xp fp
  | _, _ => Fin 0
  end.
