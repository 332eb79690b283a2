(** Model of the flowMC likelihood, of logsubexp and of the expected rate and its variance from
    injections in floating-point arithmetic:
    gwkokab/inference/poissonlikelihood_flowMC.py:72-121, gwkokab/utils/math.py:124-141 and
    gwkokab/poisson_mean/_injection_based.py:72-138.

    Numbers are those of the binary format with [prec] digits and smallest positive number
    2^[emin]; single precision, which jax uses unless told otherwise, is prec = 24 and
    emin = -149.  Sums, differences, products and quotients are rounded to nearest, ties to even.  There is no
    largest number: the model says nothing about a run in which an operation overflows.

    exp, log and log1p are parameters, as XLA promises no more than small errors.  The order
    in which XLA adds the entries of an array is a parameter as well: it may be any binary
    tree. *)
From Coq Require Import Reals List ZArith.
From Flocq Require Import Core.
Import ListNotations.
Open Scope R_scope.

(** An order of summation: who is added to whom. *)
Inductive tree := Leaf (x : R) | Node (a b : tree).

Fixpoint leaves (t : tree) : list R :=
  match t with Leaf x => [x] | Node a b => leaves a ++ leaves b end.

Fixpoint depth (t : tree) : nat :=
  match t with Leaf _ => 0%nat | Node a b => S (Nat.max (depth a) (depth b)) end.

Section Rounding.

Variables emin prec : Z.

(** the result of lax.add and lax.sub on the exact sum or difference *)
Definition fl (x : R) : R := round radix2 (FLT_exp emin prec) ZnearestE x.

Fixpoint fl_sum (t : tree) : R :=
  match t with Leaf x => x | Node a b => fl (fl_sum a + fl_sum b) end.

Variables fexp flog flog1p : R -> R.

(** the order in which the entries of an array are added *)
Variable order : list R -> tree.

(** One sample of an event: log density of the model, log reference prior, mask *)
Record sample := mksample { s_lp : R; s_ref : R; s_mask : bool }.

(** log_prob = batch_model_log_prob - batched_log_ref_priors, then -inf where masked,
    flowMC.py:99-100; [None] is -inf *)
Definition fl_log_prob (s : sample) : option R :=
  if s_mask s then Some (fl (s_lp s - s_ref s)) else None.

(** the maximum of a row; [None] is -inf *)
Fixpoint row_max (v : list (option R)) : option R :=
  match v with
  | [] => None
  | None :: v' => row_max v'
  | Some x :: v' =>
    match row_max v' with Some m => Some (Rmax x m) | None => Some x end
  end.

(** exp (a - amax); exp (-inf) is zero *)
Definition fl_term (m : R) (a : option R) : R :=
  match a with Some x => fexp (fl (x - m)) | None => 0 end.

(** jax.nn.logsumexp of a row, flowMC.py:103:
    log (sum (exp (a - amax))) + amax; with nothing but -inf it is -inf *)
Definition fl_logsumexp (v : list (option R)) : option R :=
  match row_max v with
  | Some m => Some (fl (flog (fl_sum (order (map (fl_term m) v))) + m))
  | None => None
  end.

Fixpoint all_some {A} (l : list (option A)) : option (list A) :=
  match l with
  | [] => Some []
  | Some x :: l' => match all_some l' with Some r => Some (x :: r) | None => None end
  | None :: _ => None
  end.

(** .sum(axis=0, initial=0.0), flowMC.py:103-105; the initial value is a further leaf *)
Definition fl_bucket (b : list (list sample)) : option R :=
  match all_some (map (fun row => fl_logsumexp (map fl_log_prob row)) b) with
  | Some ls => Some (fl_sum (order ls))
  | None => None
  end.

(** the loop over the buckets, flowMC.py:80-105 *)
Definition fl_total (log_constants : R) (bs : list (list (list sample))) : option R :=
  fold_left (fun acc b =>
    match acc, fl_bucket b with Some t, Some s => Some (fl (t + s)) | _, _ => None end)
    bs (Some log_constants).

(** log_posterior before nan_to_num, flowMC.py:107-113; [None] is -inf *)
Definition fl_posterior (log_prior log_constants expected_rates : R)
           (bs : list (list (list sample))) : option R :=
  match fl_total log_constants bs with
  | Some t => Some (fl (log_prior + fl (t - expected_rates)))
  | None => None
  end.

(** The result of logsubexp *)
Inductive res := Num (x : R) | MinusInf | NotANumber.

(** lax.log1p: -inf at -1, nan below it *)
Definition fl_log1p (y : R) : res :=
  match Rcompare (-1) y with
  | Lt => Num (flog1p y)
  | Eq => MinusInf
  | Gt => NotANumber
  end.

(** logsubexp, math.py:124-141 *)
Definition fl_logsubexp (a b : R) : res :=
  match fl_log1p (- fexp (fl (b - a))) with
  | Num y => Num (fl (a + y))
  | r => r
  end.

(** jnp.exp of the logsumexp; exp (-inf) is zero *)
Definition fl_exp (l : option R) : R := match l with Some x => fexp x | None => 0 end.

(** _poisson_mean, _injection_based.py:72-93.  A sample is a found injection: log density of the
    model, log of the draw density, and whether their difference is neither -inf nor nan *)
Definition fl_expected_rate (analysis_time total : R) (inj : list sample) : R :=
  fl (fl (analysis_time * fl_exp (fl_logsumexp (map fl_log_prob inj))) / total).

(** 2.0 * safe_log_prob, _injection_based.py:121; twice -inf is -inf *)
Definition fl_twice (a : option R) : option R :=
  match a with Some x => Some (fl (2 * x)) | None => None end.

(** 2.0 * log T - k * log n + l, from left to right, _injection_based.py:127-136 *)
Definition fl_log_term (analysis_time total k : R) (l : option R) : option R :=
  match l with
  | Some x => Some (fl (fl (fl (2 * flog analysis_time) - fl (k * flog total)) + x))
  | None => None
  end.

(** _variance_of_estimator, _injection_based.py:95-138 *)
Definition fl_variance (analysis_time total : R) (inj : list sample) : R :=
  let v := map fl_log_prob inj in
  let term2 := fl_exp (fl_log_term analysis_time total 3 (fl_twice (fl_logsumexp v))) in
  let term1 := fl_exp (fl_log_term analysis_time total 2 (fl_logsumexp (map fl_twice v))) in
  fl (term1 - term2).

End Rounding.
