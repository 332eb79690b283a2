(** The normal distribution functions the code takes from jax.scipy. *)
From Coq Require Import Reals.
From Coquelicot Require Import Coquelicot.
From Verif Require Import Model_X.
Open Scope R_scope.

(** standard normal density *)
Definition phi (x : R) : R := exp (- (x * x / 2)) / sqrt (2 * PI).
(** jax.scipy.special.ndtr: the standard normal distribution function.  Its defining property
    (derivative [phi], limits 0 and 1) is proved in Proofs_Gauss. *)
Definition ndtr (x : R) : R := 1/2 + RInt phi 0 x.
(** jax.scipy.special.log_ndtr *)
Definition log_ndtr (x : R) : X := xln (Fin (ndtr x)).
(** jax.scipy.stats.norm.pdf *)
Definition norm_pdf (x loc scale : R) : R := phi ((x - loc) / scale) / scale.
