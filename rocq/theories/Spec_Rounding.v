(** Vocabulary of the rounding properties. *)
From Coq Require Import Reals List ZArith Permutation.
From Flocq Require Import Core.
From Verif Require Import Model_Rounding.
Import ListNotations.
Open Scope R_scope.

Definition sum_of (l : list R) : R := fold_right Rplus 0 l.

(** The numbers of the format *)
Definition is_float (emin prec : Z) (x : R) : Prop := generic_format radix2 (FLT_exp emin prec) x.

(** Half the distance from one to the next float *)
Definition unit_roundoff (prec : Z) : R := bpow radix2 (- prec).

(** A library function [g] for the function [f] on the set [dom]: floats to floats, with
    relative error at most [e] up to [eta] for results close to zero *)
Definition accurate (emin prec : Z) (e eta : R) (dom : R -> Prop) (f g : R -> R) : Prop :=
  forall x, is_float emin prec x -> dom x ->
    is_float emin prec (g x) /\ Rabs (g x - f x) <= e * Rabs (f x) + eta.

(** An order of summation adds up every entry once, and zeros besides *)
Definition adds_up (order : list R -> tree) : Prop :=
  forall l, exists k, Permutation (leaves (order l)) (l ++ repeat 0 k).

(** No chain of additions is longer than [H] for arrays of at most [N] entries *)
Definition chains (order : list R -> tree) (N H : nat) : Prop :=
  forall l, (length l <= N)%nat -> (depth (order l) <= H)%nat.

(** What [h] roundings one after the other amount to *)
Definition growth (u : R) (h : nat) : R := (1 + u) ^ h - 1.

(** Relative error of [n] exponentials, of which the largest is one, before they are added:
    the shift by the maximum costs no more than the logarithm of their number *)
Definition weight_error (u e eta : R) (n : nat) : R :=
  exp (u * ln (INR n)) * (u / (1 - u) * ln (INR n) + e) + INR n * eta.

(** Relative error of their sum *)
Definition sum_error (u e eta : R) (n h : nat) : R :=
  growth u h * (1 + weight_error u e eta n) + weight_error u e eta n.

(** Absolute error of the logarithm of a sum that has relative error [q] *)
Definition of_relative (q : R) : R := q / (1 - q).

(** Error of log sum exp before the maximum is added back *)
Definition log_error (u e eta : R) (n h : nat) : R :=
  of_relative (sum_error u e eta n h) + e * (ln (INR n) + of_relative (sum_error u e eta n h)) + eta.

(** Error of an event with [n] samples, whose log weights are at most [W] in size and whose
    exact term is [L] *)
Definition event_error (u e eta : R) (n h : nat) (W L : R) : R :=
  u * W + log_error u e eta n h + u * (Rabs L + u * W + log_error u e eta n h).

(** The exact term of an event: log of the sum of the weights rho / pi of its samples *)
Definition kept (row : list sample) : list sample := filter s_mask row.
Definition exact_term (row : list sample) : R :=
  ln (sum_of (map (fun s => exp (s_lp s - s_ref s)) (kept row))).

(** The exact log posterior *)
Definition exact_posterior (log_prior log_constants expected_rates : R)
           (bs : list (list (list sample))) : R :=
  log_prior + (log_constants + sum_of (map exact_term (concat bs)) - expected_rates).

(** A row of at most [N] samples, given by floats, at least one of them not masked, the log
    weights of which are at most [W] *)
Definition good_row (emin prec : Z) (N : nat) (W : R) (row : list sample) : Prop :=
  (length row <= N)%nat /\ kept row <> [] /\
  forall s, In s row -> s_mask s = true ->
    is_float emin prec (s_lp s) /\ is_float emin prec (s_ref s) /\ Rabs (s_lp s - s_ref s) <= W.

(** Relative error of the exponential of a number that is off by [d] *)
Definition exp_error (e d : R) : R := (1 + e) * exp d - 1.

(** The weights of the injections: model density over draw density *)
Definition weights (inj : list sample) : list R := map (fun s => exp (s_lp s - s_ref s)) (kept inj).

(** The expected rate, and the variance of its estimate *)
Definition exact_rate (T n : R) (inj : list sample) : R := T * sum_of (weights inj) / n.
Definition first_term (T n : R) (inj : list sample) : R :=
  (T / n) ^ 2 * sum_of (map (fun w => w ^ 2) (weights inj)).
Definition second_term (T n : R) (inj : list sample) : R :=
  (T / n) ^ 2 * (sum_of (weights inj)) ^ 2 / n.
Definition exact_variance (T n : R) (inj : list sample) : R := first_term T n inj - second_term T n inj.

(** Error of (p - q) + r, if p - q is [d] but for [dd] and r is [r] but for [dr] *)
Definition chain_error (u d dd r dr : R) : R :=
  let s := dd + u * (Rabs d + dd) + dr in s + u * (Rabs (d + r) + s).

(** Error of the logarithm that the library computes *)
Definition lib_error (e eta x : R) : R := e * Rabs (ln x) + eta.

(** Error of the logarithm of either term of the variance; [l] is the exact logarithm of the sum
    of the squares of the weights, or of the square of their sum, and [dl] the error of it *)
Definition first_log_error (u e eta T n l dl : R) : R :=
  chain_error u (2 * ln T - 2 * ln n) (2 * lib_error e eta T + 2 * lib_error e eta n) l dl.
Definition second_log_error (u e eta T n l dl : R) : R :=
  chain_error u (2 * ln T - 3 * ln n)
    (2 * lib_error e eta T + 3 * lib_error e eta n + u * (3 * (Rabs (ln n) + lib_error e eta n))) l dl.

(** Relative errors of the terms of the variance from at most [N] injections found, whose log
    weights are at most [W] in size *)
Definition first_error (u e eta : R) (N h : nat) (W T n : R) (inj : list sample) : R :=
  let l := ln (sum_of (map (fun w => w ^ 2) (weights inj))) in
  exp_error e (first_log_error u e eta T n l (event_error u e eta N h (2 * W) l)).
Definition second_error (u e eta : R) (N h : nat) (W T n : R) (inj : list sample) : R :=
  let l := ln (sum_of (weights inj)) in
  exp_error e (second_log_error u e eta T n (2 * l) (2 * event_error u e eta N h W l)).
