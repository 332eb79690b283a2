(** Vocabulary of the rounding properties of the truncated power law. *)
From Coq Require Import Reals ZArith.
From Coquelicot Require Import Coquelicot.
From Flocq Require Import Core.
From Verif Require Import Model_X Model_Rounding Spec_Rounding.
Open Scope R_scope.

(** A library function for powers of positive floats: relative error at most [e], up to [eta]
    for results close to zero *)
Definition accurate_power (emin prec : Z) (e eta : R) (fpow : R -> R -> R) : Prop :=
  forall x y, is_float emin prec x -> is_float emin prec y -> 0 < x ->
    is_float emin prec (fpow x y) /\ Rabs (fpow x y - Rpower x y) <= e * Rpower x y + eta.

(** What the density is divided by *)
Definition mass_under (alpha low high : R) : R := RInt (fun t => Rpower t alpha) low high.

(** The exact log density *)
Definition exact_log_density (x alpha low high : R) : R :=
  alpha * ln x - ln (mass_under alpha low high).

(** The largest logarithm met between [low] and [high] *)
Definition log_size (low high : R) : R := Rmax (Rabs (ln low)) (Rabs (ln high)).

(** By how much the errors of two powers weigh more in their difference *)
Definition amplification (b low high : R) : R :=
  (Rpower high b + Rpower low b) / Rabs (Rpower high b - Rpower low b).

(** Relative error of the difference of the two powers, divided by the exponent [b] *)
Definition quotient_error (emin prec : Z) (e eta b low high : R) : R :=
  let u := unit_roundoff prec in
  (1 + (e * amplification b low high + 2 * eta / Rabs (Rpower high b - Rpower low b))) * (1 + u) * (1 + u) - 1
  + / 2 * bpow radix2 emin / ((Rpower high b - Rpower low b) / b).

(** Relative error of the difference of the two logarithms *)
Definition log_difference_error (prec : Z) (e eta low high : R) : R :=
  (1 + (e * (Rabs (ln high) + Rabs (ln low)) + 2 * eta) / (ln high - ln low)) * (1 + unit_roundoff prec) - 1.

(** Error of the logarithm of a number whose logarithm should be [L] and is off by [r] *)
Definition after_log (e eta L r : R) : R := r + e * (Rabs L + r) + eta.

(** Error of alpha log x *)
Definition product_error (emin prec : Z) (e eta alpha x : R) : R :=
  let u := unit_roundoff prec in
  let d := Rabs alpha * (e * Rabs (ln x) + eta) in
  d + u * (Rabs alpha * Rabs (ln x) + d) + / 2 * bpow radix2 emin.

(** Error of the difference of two terms that are off by [a] and [b] and whose exact difference
    is [L] *)
Definition after_minus (prec : Z) (L a b : R) : R := a + b + unit_roundoff prec * (Rabs L + a + b).
