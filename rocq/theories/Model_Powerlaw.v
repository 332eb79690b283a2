(** Model of gwkokab/models/utils/_doubletruncpowerlaw.py.  Arguments are finite numbers; the
    primal functions return floats (so that undefined powers and logarithms show), the derivative
    rules are modelled over the reals for positive [x], [low] and [high]. *)
From Coq Require Import Reals ZArith.
From Verif Require Import Model_X.
Open Scope R_scope.

(** jnp.power(x, e) *)
Definition xpower (x e : R) : X :=
  if Rlt_dec 0 x then Fin (Rpower x e)
  else if Req_EM_T e 0 then Fin 1
  else if Req_EM_T x 0 then (if Rlt_dec 0 e then Fin 0 else PInf)
  else if Req_EM_T e (IZR (Int_part e)) then Fin (powerRZ x (Int_part e)) else NaN.
(** jnp.clip(a, 0.0, 1.0) *)
Definition clip01 (a : X) : X :=
  match a with
  | Fin x => Fin (Rmin (Rmax x 0) 1)
  | PInf => Fin 1 | NInf => Fin 0 | NaN => NaN
  end.

(** doubly_truncated_power_law_log_norm_constant, 14-29 *)
Definition log_norm (alpha low high : R) : X :=
  if Req_EM_T alpha (-1)
  then xln (xsub (xln (Fin high)) (xln (Fin low)))
  else let one_more_alpha := 1 + alpha in
       xln (xdiv (xsub (xpower high one_more_alpha) (xpower low one_more_alpha)) (Fin one_more_alpha)).

(** doubly_truncated_power_law_log_prob, 95-98 *)
Definition powerlaw_log_prob (x alpha low high : R) : X :=
  xsub (xmul (Fin alpha) (xln (Fin x))) (log_norm alpha low high).

(** doubly_truncated_power_law_cdf, 101-122 *)
Definition powerlaw_cdf (x alpha low high : R) : X :=
  clip01
    (if Req_EM_T alpha (-1)
     then xdiv (xln (xdiv (Fin x) (Fin low))) (xln (xdiv (Fin high) (Fin low)))
     else let one_more_alpha := 1 + alpha in
          let low_pow := xpower low one_more_alpha in
          xdiv (xsub (xpower x one_more_alpha) low_pow) (xsub (xpower high one_more_alpha) low_pow)).

(** doubly_truncated_power_law_icdf, 217-241; the base of the outer power is finite whenever
    [low] and [high] are positive, any other base is not modelled and gives NaN here *)
Definition powerlaw_icdf (q alpha low high : R) : X :=
  if Req_EM_T alpha (-1)
  then match xdiv (Fin high) (Fin low) with Fin r => xmul (xpower r q) (Fin low) | _ => NaN end
  else let one_more_alpha := 1 + alpha in
       let low_pow := xpower low one_more_alpha in
       let high_pow := xpower high one_more_alpha in
       match xadd low_pow (xmul (Fin q) (xsub high_pow low_pow)) with
       | Fin b => xpower b (/ one_more_alpha)
       | _ => NaN
       end.

(** ** derivative rules: the coefficient of each input tangent *)
(** 44-62, log_norm: alpha *)
Definition log_norm_alpha_variable (low high alpha : R) : R :=
  let s := 1 + alpha in
  - / s + (Rpower high s * ln high - Rpower low s * ln low) / (Rpower high s - Rpower low s).
Definition log_norm_alpha_tangent (alpha low high : R) : R :=
  if Req_EM_T alpha (-1)
  then (log_norm_alpha_variable low high (alpha - 1 / 100000)
        + log_norm_alpha_variable low high (alpha + 1 / 100000)) * (1/2)
  else log_norm_alpha_variable low high alpha.
(** 64-88, log_norm: low and high *)
Definition log_norm_low_tangent (alpha low high : R) : R :=
  if Req_EM_T alpha (-1) then - / (low * (ln high - ln low))
  else let s := 1 + alpha in - s * Rpower low alpha / (Rpower high s - Rpower low s).
Definition log_norm_high_tangent (alpha low high : R) : R :=
  if Req_EM_T alpha (-1) then / (high * (ln high - ln low))
  else let s := 1 + alpha in s * Rpower high alpha / (Rpower high s - Rpower low s).

(** 125-214, cdf *)
Definition cdf_x_tangent (x alpha low high : R) : R :=
  if Req_EM_T alpha (-1) then / (x * (ln high - ln low))
  else let s := 1 + alpha in (s * Rpower x alpha) / (Rpower high s - Rpower low s).
Definition cdf_alpha_variable (x low high alpha : R) : R :=
  let s := 1 + alpha in
  let lp := Rpower low s in let hp := Rpower high s in let xp := Rpower x s in
  (xp * ln x - lp * ln low) / (hp - lp)
  - ((xp - lp) * (hp * ln high - lp * ln low)) / (hp - lp) ^ 2.
Definition cdf_alpha_tangent (x alpha low high : R) : R :=
  if Req_EM_T alpha (-1)
  then (cdf_alpha_variable x low high (alpha - 1 / 1000)
        + cdf_alpha_variable x low high (alpha + 1 / 1000)) * (1/2)
  else cdf_alpha_variable x low high alpha.
Definition cdf_low_tangent (x alpha low high : R) : R :=
  if Req_EM_T alpha (-1)
  then (ln x - ln low) / ((ln high - ln low) ^ 2 * low) - / ((ln high - ln low) * low)
  else let s := 1 + alpha in
       let lp := Rpower low s in let hp := Rpower high s in let xp := Rpower x s in
       let change := hp - lp in
       let term2 := s * Rpower low alpha / change in
       let term1 := term2 * (xp - lp) / change in
       term1 - term2.
(** the minus sign is only there for alpha <> -1: high_eq_neg1 has none *)
Definition cdf_high_tangent (x alpha low high : R) : R :=
  if Req_EM_T alpha (-1)
  then (ln x - ln low) / ((ln high - ln low) ^ 2 * high)
  else let s := 1 + alpha in
       let lp := Rpower low s in let hp := Rpower high s in let xp := Rpower x s in
       - (s * Rpower high alpha * (xp - lp)) / (hp - lp) ^ 2.

(** 244-349, icdf *)
Definition icdf_q_tangent (q alpha low high : R) : R :=
  if Req_EM_T alpha (-1) then low * Rpower (high / low) q * (ln high - ln low)
  else let s := 1 + alpha in
       let lp := Rpower low s in let hp := Rpower high s in let change := hp - lp in
       (change * Rpower (lp + q * change) (/ s - 1)) / s.
Definition icdf_alpha_variable (q low high alpha : R) : R :=
  let s := 1 + alpha in
  let lp := Rpower low s in let hp := Rpower high s in
  let factor0 := lp + q * (hp - lp) in
  let term1 := Rpower factor0 (/ s) in
  let term2 := (lp * ln low + q * (hp * ln high - lp * ln low)) / (s * factor0) in
  let term3 := ln factor0 / s ^ 2 in
  term1 * (term2 - term3).
Definition icdf_alpha_tangent (q alpha low high : R) : R :=
  if Req_EM_T alpha (-1)
  then (icdf_alpha_variable q low high (alpha - 1 / 1000)
        + icdf_alpha_variable q low high (alpha + 1 / 1000)) * (1/2)
  else icdf_alpha_variable q low high alpha.
Definition icdf_low_tangent (q alpha low high : R) : R :=
  if Req_EM_T alpha (-1)
  then Rpower (high / low) q - (high * q * Rpower (high / low) (q - 1)) / low
  else let s := 1 + alpha in
       let lp := Rpower low s in let hp := Rpower high s in
       (1 - q) * Rpower low alpha * Rpower (lp + q * (hp - lp)) (/ s - 1).
Definition icdf_high_tangent (q alpha low high : R) : R :=
  if Req_EM_T alpha (-1) then q * Rpower (high / low) (q - 1)
  else let s := 1 + alpha in
       let lp := Rpower low s in let hp := Rpower high s in
       q * Rpower high alpha * Rpower (lp + q * (hp - lp)) (/ s - 1).
