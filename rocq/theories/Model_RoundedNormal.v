(** Model of truncnorm_logpdf in floating-point arithmetic: gwkokab/utils/math.py:144-196.

    The format is that of Model_Rounding: [prec] digits, smallest positive number 2^[emin], no
    largest number.  exp, log1p, log, ndtr and log_ndtr are parameters. *)
From Coq Require Import Reals ZArith.
From Flocq Require Import Core.
From Verif Require Import Model_X Model_Rounding Model_RoundedPower.
Open Scope R_scope.

Section RoundedNormal.

Variables emin prec : Z.
Variables fexp flog1p flog fndtr flog_ndtr : R -> R.
(** lax._const(xx, np.log(2.0 * np.pi)), math.py:180 *)
Variable constant : R.

Notation fl := (fl emin prec).

(** lax.div(lax.sub(x, loc), safe_scale), math.py:177-179 *)
Definition fl_standard (x loc scale : R) : R := fl (fl (x - loc) / scale).

(** jnp.select, math.py:187-195: the first condition that holds *)
Definition fl_truncnorm_log_norm (aa bb : R) : res :=
  if Rle_dec bb 0 then fl_logsubexp emin prec fexp flog1p (flog_ndtr bb) (flog_ndtr aa)
  else if Rlt_dec 0 aa then fl_logsubexp emin prec fexp flog1p (flog_ndtr (- aa)) (flog_ndtr (- bb))
  else fl_log1p flog1p (fl (- fndtr aa - fndtr (- bb))).

Definition of_res (r : res) : X :=
  match r with Num x => Fin x | MinusInf => NInf | NotANumber => NaN end.

(** math.py:144-197 *)
Definition fl_truncnorm_logpdf (xx loc scale low high : R) : X :=
  let safe_scale := if Rle_dec scale 0 then 1 else scale in
  let zz := fl_standard xx loc safe_scale in
  let aa := fl_standard low loc safe_scale in
  let bb := fl_standard high loc safe_scale in
  let log_pdf := fl (fl (- (1 / 2) * fl (fl (zz * zz) + constant)) - flog safe_scale) in
  let log_pdf := fl_minus emin prec log_pdf (of_res (fl_truncnorm_log_norm aa bb)) in
  if Rlt_dec xx low then NInf else if Rlt_dec high xx then NInf
  else if Rle_dec scale 0 then NInf else log_pdf.

End RoundedNormal.
