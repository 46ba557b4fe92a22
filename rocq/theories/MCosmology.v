(** Model of gwinferno/cosmology.py. *)
From Verif Require Export Arr.
Open Scope R_scope.

(** C_SI, DEFAULT_DZ (cosmology.py:13, 24) and the Planck parameters (14-22) *)
Definition C_SI : R := 299792458.
Definition DEFAULT_DZ : R := 1 / 1000.
Definition PLANCK_2015_Ho : R := 67740.
Definition PLANCK_2015_OmegaMatter : R := 3089 / 10000.
Definition PLANCK_2015_LVK_Ho : R := 67900.
Definition PLANCK_2015_LVK_OmegaMatter : R := 3065 / 10000.

(** The attributes of a Cosmology object: parameters and the tables z, Dc, Vc (cosmology.py:33-42, 65-77). *)
Record cosmo := Cosmo { Ho : num; OmegaMatter : num; OmegaRadiation : num; OmegaLambda : num;
                        cz : list num; cDc : list num; cVc : list num }.

Definition c_over_Ho (c : cosmo) : num := ndiv (Fin C_SI) (Ho c).
Definition OmegaKappa (c : cosmo) : num := nsub (Fin 1) (nadd (nadd (OmegaMatter c) (OmegaRadiation c)) (OmegaLambda c)).

(** jnp.arange(0, stop, step): the multiples i*step for i < ceil(stop/step); needs finite arguments and a non-zero step. *)
Definition ceilZ (r : R) : Z := (- Int_part (- r))%Z.
Definition arange (stop step : num) : result (list num) :=
  match stop, step with
  | Fin m, Fin d => if Reqb d 0 then Err ZeroDivision else Ok (map (fun i => Fin (INR i * d)) (seq 0 (Z.to_nat (ceilZ (m / d)))))
  | _, _ => Err ValueError
  end.

(** z2E (cosmology.py:79-86) *)
Definition z2E (c : cosmo) (z : num) : num :=
  let one_plus_z := nadd (Fin 1) z in
  npow (nadd (nadd (nadd (OmegaLambda c) (nmul (OmegaKappa c) (npowi one_plus_z 2))) (nmul (OmegaMatter c) (npowi one_plus_z 3)))
             (nmul (OmegaRadiation c) (npowi one_plus_z 4))) (Fin (1 / 2)).
(** dDcdz (88-93) *)
Definition dDcdz (c : cosmo) (z : num) : num := ndiv (c_over_Ho c) (z2E c z).
(** dVcdz with Dc given (95-101) *)
Definition dVcdz_of (c : cosmo) (z Dc : num) : num := nmul (nmul (nmul (Fin 4) (Fin PI)) (npowi Dc 2)) (dDcdz c z).
(** logdVcdz with Dc given (103-109) *)
Definition logdVcdz_of (c : cosmo) (z Dc : num) : num :=
  nadd (nadd (nlog (nmul (Fin 4) (Fin PI))) (nmul (Fin 2) (nlog Dc))) (nlog (dDcdz c z)).

(** x.at[i].set(v) *)
Fixpoint set_nth (i : nat) (v : num) (l : list num) : list num :=
  match l, i with
  | [], _ => []
  | _ :: r, O => v :: r
  | x :: r, S i' => x :: set_nth i' v r
  end.
(** update (48-63) *)
Definition update (c : cosmo) (i : nat) (x : list num * list num * list num) : list num * list num * list num :=
  let '(z, Dc, Vc) := x in
  let dz := nsub (nth 1 z NaN) (nth 0 z NaN) in
  let zi := nth i z NaN in
  let d := dDcdz c zi in
  let v := dVcdz_of c zi (nth i Dc NaN) in
  let d' := dDcdz c (nadd zi dz) in
  let Dc := set_nth (i + 1) (nadd (nth i Dc NaN) (nmul (nmul (Fin (1 / 2)) (nadd d d')) dz)) Dc in
  let v' := dVcdz_of c (nadd zi dz) (nth (i + 1) Dc NaN) in
  let Vc := set_nth (i + 1) (nadd (nth i Vc NaN) (nmul (nmul (Fin (1 / 2)) (nadd v v')) dz)) Vc in
  (z, Dc, Vc).
(** extend (65-77): fori_loop(0, len(z) - 1, update, X) *)
Definition extend (c : cosmo) (max_z dz : num) : result cosmo :=
  do z <- arange max_z dz ;
  let zeros := map (fun _ => Fin 0) z in
  let '(z', Dc, Vc) := fold_left (fun x i => update c i x) (seq 0 (length z - 1)) (z, zeros, zeros) in
  Ok (Cosmo (Ho c) (OmegaMatter c) (OmegaRadiation c) (OmegaLambda c) z Dc Vc).
(** __init__ (33-42) *)
Definition make_cosmo (ho om orad ol max_z dz : num) : result cosmo :=
  let c := Cosmo ho om orad ol [] [] [] in
  if neqb (OmegaKappa c) (Fin 0) then extend c max_z dz else Err AssertionError.

(** the DL property (44-46) *)
Definition cDL (c : cosmo) : list num := map2 (fun d z => nmul d (nadd (Fin 1) z)) (cDc c) (cz c).

(** jnp.max of an array: an empty array raises ValueError *)
Definition amax (l : list num) : result num := match l with [] => Err ValueError | x :: r => Ok (nmaxl x r) end.

(** The query methods; an array query is a list.  Returns the answer and the state of the object afterwards.
    A raised exception leaves the object as it was. *)
Definition maybe_extend (c : cosmo) (zs : list num) (dz : num) : result cosmo :=
  do mz <- amax zs ; do mt <- amax (cz c) ; if ngt mz mt then extend c mz dz else Ok c.
(** z2Dc (111-120) *)
Definition z2Dc (c : cosmo) (zs : list num) (dz : num) : result (list num * cosmo) :=
  do c <- maybe_extend c zs dz ; Ok (map (fun z => ninterp z (cz c) (cDc c)) zs, c).
(** z2DL (131-138) *)
Definition z2DL (c : cosmo) (zs : list num) (dz : num) : result (list num * cosmo) :=
  do c <- maybe_extend c zs dz ; Ok (map (fun z => ninterp z (cz c) (cDL c)) zs, c).
(** DL2z (122-129): extend has no parameter called max_DL, so the call raises TypeError *)
Definition DL2z (c : cosmo) (ds : list num) (dz : num) : result (list num * cosmo) :=
  do md <- amax ds ; do mt <- amax (cDL c) ;
  if ngt md mt then Err TypeError else Ok (map (fun d => ninterp d (cDL c) (cz c)) ds, c).
(** dVcdz and logdVcdz with Dc=None (95-109) *)
Definition dVcdz (c : cosmo) (zs : list num) (dz : num) : result (list num * cosmo) :=
  do (Dc, c) <- z2Dc c zs dz ; Ok (map2 (dVcdz_of c) zs Dc, c).
Definition logdVcdz (c : cosmo) (zs : list num) (dz : num) : result (list num * cosmo) :=
  do (Dc, c) <- z2Dc c zs dz ; Ok (map2 (logdVcdz_of c) zs Dc, c).

(** A query and its effect on a shared object *)
Inductive query := Qz2Dc (zs : list num) | Qz2DL (zs : list num) | QdVcdz (zs : list num) | QlogdVcdz (zs : list num) | QDL2z (ds : list num).
Definition ask (c : cosmo) (q : query) (dz : num) : result (list num * cosmo) :=
  match q with Qz2Dc zs => z2Dc c zs dz | Qz2DL zs => z2DL c zs dz | QdVcdz zs => dVcdz c zs dz | QlogdVcdz zs => logdVcdz c zs dz | QDL2z ds => DL2z c ds dz end.
Definition after (dz : num) (c : cosmo) (q : query) : cosmo := match ask c q dz with Ok (_, c') => c' | Err _ => c end.
(** the state after a sequence of queries with the same step *)
Definition history (c : cosmo) (qs : list query) (dz : num) : cosmo := fold_left (after dz) qs c.
