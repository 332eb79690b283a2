(** Model of the doubly truncated power law in floating-point arithmetic:
    gwkokab/models/utils/_doubletruncpowerlaw.py:15-29 and 96-99.

    The format is that of Model_Rounding: [prec] digits, smallest positive number 2^[emin], no
    largest number.  jnp.log and jnp.power are parameters for positive arguments, as XLA
    promises no more than small errors.  The custom derivative (32-93) is not part of this
    model; Model_Powerlaw has it in exact arithmetic. *)
From Coq Require Import Reals ZArith.
From Verif Require Import Model_X Model_Rounding.
Open Scope R_scope.

Section RoundedPower.

Variables emin prec : Z.
Variable flog : R -> R.
Variable fpow : R -> R -> R.

Notation fl := (fl emin prec).

(** jnp.log on a number of any sign *)
Definition fl_ln (y : R) : X :=
  match total_order_T 0 y with
  | inleft (left _) => Fin (flog y)
  | inleft (right _) => NInf
  | inright _ => NaN
  end.

(** doubly_truncated_power_law_log_norm_constant, _doubletruncpowerlaw.py:15-29; low and high
    are positive *)
Definition fl_log_norm (alpha low high : R) : X :=
  if Req_EM_T alpha (-1) then
    (* eq_neg1_fn, 26-27 *)
    fl_ln (fl (flog high - flog low))
  else
    (* neq_neg1_fn, 19-24 *)
    let one_more_alpha := fl (1 + alpha) in
    fl_ln (fl (fl (fpow high one_more_alpha - fpow low one_more_alpha) / one_more_alpha)).

(** lax.sub of a number and a number, an infinity or nan *)
Definition fl_minus (a : R) (b : X) : X :=
  match b with
  | Fin r => Fin (fl (a - r))
  | PInf => NInf
  | NInf => PInf
  | NaN => NaN
  end.

(** doubly_truncated_power_law_log_prob, _doubletruncpowerlaw.py:96-99; x is positive *)
Definition fl_power_log_prob (x alpha low high : R) : X :=
  fl_minus (fl (alpha * flog x)) (fl_log_norm alpha low high).

End RoundedPower.
