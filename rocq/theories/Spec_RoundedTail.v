(** Vocabulary of the rounding properties of the truncated normal with the mean outside the bounds. *)
From Coq Require Import Reals ZArith.
From Verif Require Import Model_Gauss Spec_Rounding Spec_RoundedPower.
Open Scope R_scope.

(** Error of log_ndtr at [p], and at every place above *)
Definition log_ndtr_error (e eta p : R) : R := e * Rabs (ln (ndtr p)) + eta.

(** Relative error of the mass between [p] and [r] on account of it *)
Definition tail_mass_error (e eta p r : R) : R :=
  (ndtr r + ndtr p) / (ndtr r - ndtr p) * (exp (log_ndtr_error e eta p) - 1).

(** Relative error of 1 - exp (b - a) in logsubexp *)
Definition tail_difference_error (prec : Z) (e eta p r : R) : R :=
  (unit_roundoff prec + e + eta) * (ndtr r * exp (log_ndtr_error e eta p)
    / ((1 - tail_mass_error e eta p r) * (ndtr r - ndtr p))).

(** Error of the log mass *)
Definition tail_error (prec : Z) (e eta p r : R) : R :=
  let L := ln (ndtr r - ndtr p) in
  let r2 := of_relative (tail_mass_error e eta p r) in
  let f := after_log e eta (Rabs (L - ln (ndtr r)) + r2 + log_ndtr_error e eta p)
             (of_relative (tail_difference_error prec e eta p r)) in
  r2 + f + unit_roundoff prec * (Rabs L + r2 + f).
