(** Model of gwinferno/distributions.py.  Functions are pointwise in the array argument, so the
    model is the scalar function (arrays are [map]s of it). *)
From Coquelicot Require Import Coquelicot.
From Verif Require Export Num Arr.
Open Scope num_scope.

(** jax.scipy.special.erf: the error function, with its limits at +-inf. *)
Definition erf (x : R) : R := (2 / sqrt PI * RInt (fun t => exp (- (t * t))) 0 x)%R.
Definition nerf (x : num) : num :=
  match x with Fin a => Fin (erf a) | PInf => Fin 1 | NInf => Fin (-1) | NaN => NaN end.

(** distributions.py:16-21 smooth.  Note the [|] in the condition: transcribed as is. *)
Definition smooth (dx x xmin : num) : num :=
  let func := nexp (dx / (x - xmin) + dx / (x - xmin - dx)) in
  let s1 := nwhere (nlt x xmin) (Fin 0) (Fin 1) in
  nwhere (nlt x (xmin + dx) || nge x xmin) (Fin 1 / (func + Fin 1)) s1.

(** distributions.py:24-37 logistic_function *)
Definition logistic_function (x L k x0 : num) : num :=
  L / (Fin 1 + nexp (- k * (x - x0))).

(** distributions.py:40-53 logistic_unit *)
Definition logistic_unit (x x0 sgn sc : num) : num :=
  logistic_function x (Fin 1) (Fin (-1) * sgn * sc) x0.

(** distributions.py:56-72 log_logistic_unit *)
Definition log_logistic_unit (x x0 sgn sc : num) : num :=
  let diff := x - x0 in
  nwhere (nlt (diff * sgn * sc) (Fin 0))
    (nlog (logistic_unit x x0 sgn sc))
    (- sgn * sc * (x - x0) + nlog (logistic_unit x x0 (- sgn) sc)).

(** distributions.py:75-97 powerlaw_logit_pdf; optional bounds are [option]s. *)
Definition powerlaw_logit_pdf (xx alpha : num) (low high : option num)
    (low_fall_off high_fall_off : num) : num :=
  let prob := npow xx alpha in
  let prob := match low with
              | Some l => prob * logistic_unit xx l (Fin (-1)) low_fall_off
              | None => prob end in
  match high with
  | Some h => prob * logistic_unit xx h (Fin 1) high_fall_off
  | None => prob end.

(** distributions.py:100-119 powerlaw_pdf *)
Definition powerlaw_pdf (xx alpha low high floor : num) : num :=
  let prob := npow xx alpha in
  let norm := nwhere (neqb alpha (Fin (-1)))
    (Fin 1 / nlog (high / low))
    ((Fin 1 + alpha) / (npow high (Fin 1 + alpha) - npow low (Fin 1 + alpha))) in
  let prob := prob * norm in
  nwhere (nlt xx low || ngt xx high) floor prob.

(** distributions.py:122-143 truncnorm_pdf (the [2 ** 0.5] and [(2 pi) ** 0.5] are square roots). *)
Definition truncnorm_pdf (xx mu sig low high : num) (log : bool) : num :=
  let s2 := Fin (sqrt 2) in
  let prob := if log
    then nexp (- npowi (nlog xx - mu) 2 / (Fin 2 * npowi sig 2))
    else nexp (- npowi (xx - mu) 2 / (Fin 2 * npowi sig 2)) in
  let continuous_norm := if log
    then Fin 1 / (xx * sig * nsqrt (Fin 2 * Fin PI))
    else Fin 1 / (sig * nsqrt (Fin 2 * Fin PI)) in
  let tail b := if log
    then Fin (1/2) * (Fin 1 + nerf ((nlog b - mu) / (sig * s2)))
    else Fin (1/2) * (Fin 1 + nerf ((b - mu) / (sig * s2))) in
  let left_tail_cdf := tail low in
  let right_tail_cdf := tail high in
  let denom := right_tail_cdf - left_tail_cdf in
  let norm := continuous_norm / denom in
  nwhere (ngt xx high || nlt xx low) (Fin 0) (prob * norm).

(** distributions.py:146-162 betadist; [betaln] is the external jax.scipy.special.betaln. *)
Definition betadist (betaln : num -> num -> num) (xx alpha beta scale floor : num) : num :=
  let ln_beta := (alpha - Fin 1) * nlog xx + (beta - Fin 1) * nlog (scale - xx)
                 - (alpha + beta - Fin 1) * nlog scale in
  let ln_beta := ln_beta - betaln alpha beta in
  nwhere (nle xx scale && nge xx (Fin 0)) (nexp ln_beta) floor.
