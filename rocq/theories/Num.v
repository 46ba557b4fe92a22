(** Numbers as the code sees them: floats with IEEE special values.

    Simplifications (see DESIGN.md section 1): finite arithmetic is exact
    real arithmetic (no rounding, no overflow), there is a single unsigned zero. *)
From Coq Require Export Reals List Bool Arith Lia Lra Psatz ZArith.
Export ListNotations.
Open Scope R_scope.

(** Boolean comparisons on reals. *)
Definition Rltb (x y : R) : bool := if Rlt_dec x y then true else false.
Definition Rleb (x y : R) : bool := if Rle_dec x y then true else false.
Definition Reqb (x y : R) : bool := if Req_EM_T x y then true else false.

(** A float: a finite number, +inf, -inf or NaN. *)
Inductive num : Type := Fin (r : R) | PInf | NInf | NaN.

Declare Scope num_scope.
Delimit Scope num_scope with num.
Bind Scope num_scope with num.

(** Largest finite float32 (JAX default dtype; nothing in /repo enables x64):
    the value [jnp.nan_to_num] substitutes for infinities. *)
Definition FMAX : R := 340282346638528859811704183484516925440.

Definition nneg (x : num) : num :=
  match x with Fin a => Fin (- a) | PInf => NInf | NInf => PInf | NaN => NaN end.

Definition nadd (x y : num) : num :=
  match x, y with
  | Fin a, Fin b => Fin (a + b)
  | NaN, _ | _, NaN => NaN
  | PInf, NInf | NInf, PInf => NaN
  | PInf, _ | _, PInf => PInf
  | NInf, _ | _, NInf => NInf
  end.

Definition nsub (x y : num) : num := nadd x (nneg y).

(** sign of a real times infinity *)
Definition sinf (a : R) : num := if Rltb 0 a then PInf else if Rltb a 0 then NInf else NaN.

Definition nmul (x y : num) : num :=
  match x, y with
  | Fin a, Fin b => Fin (a * b)
  | NaN, _ | _, NaN => NaN
  | Fin a, PInf | PInf, Fin a => sinf a
  | Fin a, NInf | NInf, Fin a => nneg (sinf a)
  | PInf, PInf | NInf, NInf => PInf
  | PInf, NInf | NInf, PInf => NInf
  end.

(** Division; the single zero behaves like +0: [a/0] is [sign(a) inf], [0/0] is NaN,
    [inf/0] is inf. *)
Definition ndiv (x y : num) : num :=
  match x, y with
  | NaN, _ | _, NaN => NaN
  | Fin a, Fin b => if Reqb b 0 then sinf a else Fin (a / b)
  | Fin _, _ => Fin 0
  | PInf, Fin b => if Rltb b 0 then NInf else PInf
  | NInf, Fin b => if Rltb b 0 then PInf else NInf
  | _, _ => NaN
  end.

Notation "x + y" := (nadd x y) : num_scope.
Notation "x - y" := (nsub x y) : num_scope.
Notation "x * y" := (nmul x y) : num_scope.
Notation "x / y" := (ndiv x y) : num_scope.
Notation "- x" := (nneg x) : num_scope.

(** jnp.exp / jnp.log / square root *)
Definition nexp (x : num) : num :=
  match x with Fin a => Fin (exp a) | PInf => PInf | NInf => Fin 0 | NaN => NaN end.

Definition nlog (x : num) : num :=
  match x with
  | Fin a => if Rltb 0 a then Fin (ln a) else if Reqb a 0 then NInf else NaN
  | PInf => PInf
  | _ => NaN
  end.

Definition nsqrt (x : num) : num :=
  match x with
  | Fin a => if Rltb a 0 then NaN else Fin (sqrt a)
  | PInf => PInf
  | _ => NaN
  end.

(** [x ** y] with a real exponent (jnp.power): for negative finite bases only integer
    exponents give a number. *)
Definition npowR (x y : R) : num :=
  if Rltb 0 x then Fin (Rpower x y)
  else if Reqb x 0 then (if Rltb 0 y then Fin 0 else if Reqb y 0 then Fin 1 else PInf)
  else if Reqb (IZR (Int_part y)) y then Fin (powerRZ x (Int_part y)) else NaN.

Definition npow (x y : num) : num :=
  match x, y with
  | Fin a, Fin b => npowR a b
  | Fin a, NaN => if Reqb a 1 then Fin 1 else NaN
  | NaN, Fin b => if Reqb b 0 then Fin 1 else NaN
  | NaN, _ => NaN
  | _, NaN => NaN
  | Fin a, PInf => if Rltb 1 (Rabs a) then PInf else if Reqb (Rabs a) 1 then Fin 1 else Fin 0
  | Fin a, NInf => if Rltb 1 (Rabs a) then Fin 0 else if Reqb (Rabs a) 1 then Fin 1 else PInf
  | PInf, Fin b => if Rltb 0 b then PInf else if Reqb b 0 then Fin 1 else Fin 0
  | PInf, PInf => PInf
  | PInf, NInf => Fin 0
  | NInf, Fin b =>
      if Reqb b 0 then Fin 1
      else if Rltb 0 b then
        (if Reqb (IZR (Int_part b)) b && Z.odd (Int_part b) then NInf else PInf)
      else Fin 0
  | NInf, PInf => PInf
  | NInf, NInf => Fin 0
  end.

(** [x ** n] with a literal natural exponent: JAX's integer_pow, repeated multiplication. *)
Fixpoint npowi (x : num) (n : nat) : num :=
  match n with O => Fin 1 | S O => x | S m => nmul x (npowi x m) end.

(** Trigonometric functions: NaN off the domain. *)
Definition nsin (x : num) : num := match x with Fin a => Fin (sin a) | _ => NaN end.
Definition ncos (x : num) : num := match x with Fin a => Fin (cos a) | _ => NaN end.
Definition nacos (x : num) : num :=
  match x with Fin a => if Rleb (-1) a && Rleb a 1 then Fin (acos a) else NaN | _ => NaN end.
Definition nasin (x : num) : num :=
  match x with Fin a => if Rleb (-1) a && Rleb a 1 then Fin (asin a) else NaN | _ => NaN end.

Definition nabs (x : num) : num :=
  match x with Fin a => Fin (Rabs a) | PInf | NInf => PInf | NaN => NaN end.

(** Comparisons: false as soon as one side is NaN. *)
Definition nlt (x y : num) : bool :=
  match x, y with
  | NaN, _ | _, NaN => false
  | Fin a, Fin b => Rltb a b
  | NInf, NInf => false | NInf, _ => true
  | _, PInf => match x with PInf => false | _ => true end
  | _, _ => false
  end.
Definition nle (x y : num) : bool :=
  match x, y with
  | NaN, _ | _, NaN => false
  | Fin a, Fin b => Rleb a b
  | NInf, _ => true
  | _, PInf => true
  | _, _ => false
  end.
Definition neqb (x y : num) : bool :=
  match x, y with
  | Fin a, Fin b => Reqb a b
  | PInf, PInf | NInf, NInf => true
  | _, _ => false
  end.
Definition ngt x y := nlt y x.
Definition nge x y := nle y x.
Definition nisnan (x : num) : bool := match x with NaN => true | _ => false end.
Definition nisfin (x : num) : bool := match x with Fin _ => true | _ => false end.

(** jnp.maximum / jnp.minimum: NaN propagates. *)
Definition nmax (x y : num) : num :=
  match x, y with NaN, _ | _, NaN => NaN | _, _ => if nle x y then y else x end.
Definition nmin (x y : num) : num :=
  match x, y with NaN, _ | _, NaN => NaN | _, _ => if nle x y then x else y end.

(** jnp.where on scalars (both branches are evaluated, one is selected). *)
Definition nwhere (b : bool) (x y : num) : num := if b then x else y.

(** jnp.nan_to_num(x, nan=.., posinf=.., neginf=..) with explicit replacement values. *)
Definition nan_to_num_gen (vnan vpos vneg x : num) : num :=
  match x with Fin a => Fin a | PInf => vpos | NInf => vneg | NaN => vnan end.
(** jnp.nan_to_num(x): NaN -> 0, +-inf -> +-largest float. *)
Definition nan_to_num (x : num) : num := nan_to_num_gen (Fin 0) (Fin FMAX) (Fin (- FMAX)) x.

Definition is_fin (x : num) : Prop := exists r, x = Fin r.

(** Python exceptions raised by the modelled code. *)
Inductive exn : Type :=
  TypeError | ValueError | KeyError | IndexError | AttributeError | AssertionError
| ImportError | ZeroDivision | ShapeError | RecursionError | OtherError.
Inductive result (A : Type) : Type := Ok (a : A) | Err (e : exn).
Arguments Ok {A} a.
Arguments Err {A} e.
Definition rbind {A B} (r : result A) (f : A -> result B) : result B :=
  match r with Ok a => f a | Err e => Err e end.
Notation "'do' x <- r ; k" := (rbind r (fun x => k)) (at level 200, x pattern, r at level 100, k at level 200).
