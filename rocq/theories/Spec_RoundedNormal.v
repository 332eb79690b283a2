(** Vocabulary of the rounding properties of the truncated normal. *)
From Coq Require Import Reals ZArith.
From Flocq Require Import Core.
From Verif Require Import Model_X Model_Gauss Model_Rounding Spec_Rounding Spec_RoundedPower.
Open Scope R_scope.

(** The mass of the normal distribution between the bounds, and the exact log density *)
Definition normal_mass (loc scale low high : R) : R :=
  ndtr ((high - loc) / scale) - ndtr ((low - loc) / scale).
Definition exact_truncnorm (x loc scale low high : R) : R :=
  ln (norm_pdf x loc scale / normal_mass loc scale low high).

(** Error of a rounded number that should be [v] and was off by [r] before *)
Definition rounded (emin prec : Z) (v r : R) : R :=
  r + unit_roundoff prec * (Rabs v + r) + / 2 * bpow radix2 emin.

(** Error of a standardised value that should be [z] *)
Definition standard_error (emin prec : Z) (z : R) : R :=
  rounded emin prec z (unit_roundoff prec * Rabs z).

(** Error of the mass between [a] and [b] standard deviations *)
Definition mass_error (emin prec : Z) (e eta a b : R) : R :=
  (1 + unit_roundoff prec) * (1 + e + 2 * eta) - 1 + standard_error emin prec a + standard_error emin prec b.

(** Error of the log density of the normal itself, at [z] standard deviations, whose exact value is
    [-(z^2 + log 2 pi) / 2 - log scale] *)
Definition pdf_error (emin prec : Z) (e eta z scale : R) : R :=
  let dz := standard_error emin prec z in
  let dsquare := rounded emin prec (z * z) (dz * (2 * Rabs z + dz)) in
  let dsum := rounded emin prec (z * z + ln (2 * PI)) (dsquare + unit_roundoff prec * ln (2 * PI)) in
  let dhalf := rounded emin prec ((z * z + ln (2 * PI)) / 2) (dsum / 2) in
  rounded emin prec (- ((z * z + ln (2 * PI)) / 2) - ln scale) (dhalf + (e * Rabs (ln scale) + eta)).
