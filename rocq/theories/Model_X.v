(** Extended reals with the special values of IEEE floating point, used to model jnp/np scalars.

    Simplification: no rounding, no overflow/underflow, no signed zero (a zero divisor counts
    as +0).  The operations follow the IEEE-754 rules for infinities and NaN, as implemented by
    the JAX/NumPy primitives the code calls. *)
From Coq Require Import Reals List Bool.
Import ListNotations.
Open Scope R_scope.

Inductive X : Type := Fin (r : R) | PInf | NInf | NaN.

(** jnp.add *)
Definition xadd (a b : X) : X :=
  match a, b with
  | NaN, _ | _, NaN => NaN
  | PInf, NInf | NInf, PInf => NaN
  | PInf, _ | _, PInf => PInf
  | NInf, _ | _, NInf => NInf
  | Fin x, Fin y => Fin (x + y)
  end.

Arguments xadd !a !b.

(** unary minus *)
Definition xopp (a : X) : X :=
  match a with Fin x => Fin (- x) | PInf => NInf | NInf => PInf | NaN => NaN end.

(** jnp.subtract *)
Definition xsub (a b : X) : X := xadd a (xopp b).

(** infinity with the sign of [x] times the sign [s]; 0 * inf = NaN *)
Definition xinf_times (pos : bool) (x : R) : X :=
  if Rlt_dec 0 x then (if pos then PInf else NInf)
  else if Rlt_dec x 0 then (if pos then NInf else PInf)
  else NaN.

(** jnp.multiply *)
Definition xmul (a b : X) : X :=
  match a, b with
  | NaN, _ | _, NaN => NaN
  | Fin x, Fin y => Fin (x * y)
  | Fin x, PInf | PInf, Fin x => xinf_times true x
  | Fin x, NInf | NInf, Fin x => xinf_times false x
  | PInf, PInf | NInf, NInf => PInf
  | PInf, NInf | NInf, PInf => NInf
  end.

(** jnp.divide *)
Definition xdiv (a b : X) : X :=
  match a, b with
  | NaN, _ | _, NaN => NaN
  | Fin x, Fin y => if Req_EM_T y 0 then xinf_times true x else Fin (x / y)
  | Fin _, PInf | Fin _, NInf => Fin 0
  | PInf, Fin y => if Rlt_dec y 0 then NInf else PInf
  | NInf, Fin y => if Rlt_dec y 0 then PInf else NInf
  | PInf, PInf | NInf, NInf | PInf, NInf | NInf, PInf => NaN
  end.

(** jnp.exp *)
Definition xexp (a : X) : X :=
  match a with Fin x => Fin (exp x) | PInf => PInf | NInf => Fin 0 | NaN => NaN end.

(** jnp.log *)
Definition xln (a : X) : X :=
  match a with
  | Fin x => if Rlt_dec 0 x then Fin (ln x) else if Req_EM_T x 0 then NInf else NaN
  | PInf => PInf | NInf => NaN | NaN => NaN
  end.

(** comparisons: anything involving NaN is false *)
Definition xltb (a b : X) : bool :=
  match a, b with
  | NaN, _ | _, NaN => false
  | Fin x, Fin y => if Rlt_dec x y then true else false
  | NInf, NInf => false
  | NInf, _ => true
  | _, NInf => false
  | PInf, _ => false
  | Fin _, PInf => true
  end.
Definition xleb (a b : X) : bool :=
  match a, b with
  | NaN, _ | _, NaN => false
  | Fin x, Fin y => if Rle_dec x y then true else false
  | NInf, _ => true
  | _, NInf => false
  | _, PInf => true
  | PInf, Fin _ => false
  end.

(** jnp.isneginf, jnp.isnan, jnp.isfinite *)
Definition isneginf (a : X) : bool := match a with NInf => true | _ => false end.
Definition isnan (a : X) : bool := match a with NaN => true | _ => false end.
Definition isfinite (a : X) : bool := match a with Fin _ => true | _ => false end.

(** jnp.maximum (propagates NaN) *)
Definition xmax (a b : X) : X :=
  match a, b with
  | NaN, _ | _, NaN => NaN
  | _, _ => if xleb a b then b else a
  end.

(** jnp.sum / jnp.max along an axis. The reduction order is irrelevant in exact arithmetic
    (see [xsum_permutation]). *)
Definition xsum (l : list X) : X := fold_right xadd (Fin 0) l.
Definition xmaximum (l : list X) : X := fold_right xmax NInf l.

(** jax.nn.logsumexp(a): subtract the (finite) maximum, exponentiate, sum, log, add back. *)
Definition logsumexp (l : list X) : X :=
  let amax := xmaximum l in
  let amax := if isfinite amax then amax else Fin 0 in
  xadd (xln (xsum (map (fun a => xexp (xsub a amax)) l))) amax.

(** jax.nn.logsumexp(a, where=w): entries whose mask is false are left out of the maximum and
    of the sum. *)
Definition logsumexp_where (l : list (bool * X)) : X :=
  logsumexp (map snd (filter fst l)).

(** jnp.logaddexp *)
Definition logaddexp (a b : X) : X := xln (xadd (xexp a) (xexp b)).

(** jnp.nan_to_num(x, nan=-inf, posinf=-inf, neginf=-inf), as used in the likelihoods *)
Definition nan_to_neginf (a : X) : X := match a with Fin x => Fin x | _ => NInf end.
