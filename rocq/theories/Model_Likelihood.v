(** Model of the Poisson likelihoods:
    gwkokab/inference/poissonlikelihood_flowMC.py, poissonlikelihood_numpyro.py and
    poissonlikelihood_utils.py.

    The population model, the priors, the expected-rate estimator and the user's
    where-functions are parameters: any function may be plugged in, and they may return any
    special value. *)
From Coq Require Import Reals List Bool String.
From Verif Require Import Model_X.
Import ListNotations.
Open Scope R_scope.

Section Likelihood.

(** one posterior sample (one row of an event's array) *)
Variable D : Type.

(** A population model instance: its log density at a sample, and
    [support.feasible_like(prototype)], which returns an array of the prototype's shape. *)
Record model := mkmodel { m_lp : D -> X; m_feasible : list D -> list D }.

Definition params := list (string * X).
Variable dist_fn : params -> model.
Variable poisson_mean : model -> X.

(** element-wise operations on arrays of equal length; jnp raises when the shapes differ *)
Fixpoint map2 {A B C} (f : A -> B -> C) (a : list A) (b : list B) : list C :=
  match a, b with x :: a', y :: b' => f x y :: map2 f a' b' | _, _ => [] end.

(** A padded bucket: data (n_events x n_samples), log reference priors and mask *)
Record bucket := mkbucket {
  b_data : list (list D); b_ref : list (list X); b_mask : list (list bool) }.

(** jnp.where(mask, a, b) on one row *)
Definition where_row {A} (mask : list bool) (a b : list A) : list A :=
  map2 (fun (k : bool) p => if k then fst p else snd p) mask (combine a b).

(** The bucket's contribution,
    poissonlikelihood_flowMC.py:86-104, poissonlikelihood_numpyro.py:58-79 *)
Definition bucket_term (m : model) (b : bucket) : X :=
  let feasible_point := m_feasible m (hd [] (b_data b)) in
  let safe_data := map2 (fun mask row => where_row mask row feasible_point) (b_mask b) (b_data b) in
  let batch_model_log_prob := map (map (m_lp m)) safe_data in
  let log_prob := map2 (map2 xsub) batch_model_log_prob (b_ref b) in
  let log_prob := map2 (fun mask row => where_row mask row (map (fun _ => NInf) row))
                       (b_mask b) log_prob in
  xsum (map logsumexp log_prob).

(** for ... in zip(data_group, log_ref_priors_group, masks_group): flowMC.py:83-104 *)
Definition total_log_likelihood (log_constants : X) (m : model) (bs : list bucket) : X :=
  fold_left (fun acc b => xadd acc (bucket_term m b)) bs log_constants.

(** jax.lax.dynamic_index_in_dim clamps the index into range *)
Definition dynamic_index (x : list X) (i : nat) : X := nth (Nat.min i (List.length x - 1)) x NaN.

(** _map_params, flowMC.py:66-70 *)
Definition map_params (variables_index : list (string * nat)) (x : list X) : params :=
  map (fun p => (fst p, dynamic_index x (snd p))) variables_index.

(** likelihood_fn, flowMC.py:72-121 *)
Definition flowmc_core (prior_lp : list X -> X) (variables_index : list (string * nat))
           (log_constants : X) (constants : params) (x : list X) (bs : list bucket) : X :=
  let m := dist_fn (constants ++ map_params variables_index x) in
  let log_likelihood := xsub (total_log_likelihood log_constants m bs) (poisson_mean m) in
  nan_to_neginf (xadd (prior_lp x) log_likelihood).

(** likelihood_fn / likelihood_fn_with_checks, flowMC.py:123-138 *)
Definition flowmc_likelihood (prior_lp : list X -> X) (prior_support : list X -> bool)
           (variables_index : list (string * nat)) (log_constants : X)
           (where_fns : option (list (params -> bool))) (constants : params)
           (x : list X) (bs : list bucket) : X :=
  match where_fns with
  | None => flowmc_core prior_lp variables_index log_constants constants x bs
  | Some fns =>
    let mapped := map_params variables_index x in
    let predicate := fold_left (fun p f => p && f (constants ++ mapped)) fns (prior_support x) in
    let predicate := forallb isfinite x && predicate in
    if predicate then flowmc_core prior_lp variables_index log_constants constants x bs
    else NInf
  end.

(** _log_likelihood_core, numpyro.py:38-93, on the drawn values *)
Definition numpyro_core (variables_index : list (string * nat)) (log_constants : X)
           (constants : params) (values : list X) (bs : list bucket) : X :=
  let mapped := map (fun p => (fst p, nth (snd p) values NaN)) variables_index in
  let m := dist_fn (constants ++ mapped) in
  nan_to_neginf (xsub (total_log_likelihood log_constants m bs) (poisson_mean m)).

(** jnp.nan_to_num(x, nan=-inf) with the default replacements of the infinities by the
    largest finite numbers; [big] is the largest finite float *)
Definition nan_to_num_default (big : R) (a : X) : X :=
  match a with Fin x => Fin x | PInf => Fin big | NInf => Fin (- big) | NaN => NInf end.

(** The value of the factor site, numpyro.py:130-151 *)
Definition numpyro_factor (big : R) (variables_index : list (string * nat)) (log_constants : X)
           (where_fns : option (list (params -> bool))) (constants : params)
           (values : list X) (bs : list bucket) : X :=
  let ll := numpyro_core variables_index log_constants constants values bs in
  let mapped := map (fun p => (fst p, nth (snd p) values NaN)) variables_index in
  let ll :=
    match where_fns with
    | Some (f :: fns) =>
      let mask := fold_left (fun p g => p && g (constants ++ mapped)) fns (f (constants ++ mapped)) in
      if mask then ll else NInf
    | _ => ll
    end in
  nan_to_num_default big ll.

(** The variance of the single-event Monte-Carlo integrals,
    poissonlikelihood_utils.py:28-75.  [feasible_like(batched_data)] has the bucket's shape; it
    is modelled row by row. *)
Definition b2x (b : bool) : R := if b then 1 else 0.
Definition count_nonzero (mask : list bool) : R := fold_right (fun b acc => b2x b + acc) 0 mask.

Definition event_variance (mask : list bool) (log_prob : list X) : X :=
  let kept := filter (fun a => negb (isneginf a)) log_prob in
  let log_prob_sum := logsumexp kept in
  let log_prob_sum_2 :=
      logsumexp (map snd (filter (fun p => negb (isneginf (fst p)))
                                 (combine log_prob (map (xmul (Fin 2)) log_prob)))) in
  let safe_prob_sum := if isneginf log_prob_sum then Fin 0 else xexp log_prob_sum in
  let safe_prob_sum_2 := if isneginf log_prob_sum_2 then Fin 0 else xexp log_prob_sum_2 in
  xsub (xdiv safe_prob_sum_2 (xmul safe_prob_sum safe_prob_sum))
       (xdiv (Fin 1) (Fin (count_nonzero mask))).

Definition safe_event_log_prob (m : model) (mask : list bool) (data : list D) (ref : list X)
  : list X :=
  let safe_data := where_row mask data (m_feasible m data) in
  let safe_ref := where_row mask ref (map (fun _ => Fin 0) ref) in
  let lp := map (m_lp m) safe_data in
  let safe_lp := where_row mask lp (map (fun _ => NInf) lp) in
  let log_prob := map2 xsub safe_lp safe_ref in
  map2 (fun (k : bool) a => if k && negb (isnan a) then a else NInf) mask log_prob.

Definition bucket_variance (m : model) (b : bucket) : X :=
  xsum (map2 (fun mask p => event_variance mask (safe_event_log_prob m mask (fst p) (snd p)))
             (b_mask b) (combine (b_data b) (b_ref b))).

Definition variance_of_single_event_likelihood (m : model) (bs : list bucket) : X :=
  fold_left (fun acc b => xadd acc (bucket_variance m b)) bs (Fin 0).

End Likelihood.

Arguments mkmodel {D}.
Arguments m_lp {D}.
Arguments m_feasible {D}.
Arguments mkbucket {D}.
Arguments b_data {D}.
Arguments b_ref {D}.
Arguments b_mask {D}.
Arguments bucket_term {D}.
Arguments total_log_likelihood {D}.
Arguments flowmc_core {D}.
Arguments flowmc_likelihood {D}.
Arguments numpyro_core {D}.
Arguments numpyro_factor {D}.
Arguments bucket_variance {D}.
Arguments variance_of_single_event_likelihood {D}.
Arguments safe_event_log_prob {D}.
