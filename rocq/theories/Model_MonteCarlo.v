(** Model of the Monte-Carlo estimators and the per-event sampling loop of
    gwkokab/inference/analyticallikelihood.py, and of the injection-based expected-count
    estimator, gwkokab/poisson_mean/_injection_based.py. *)
From Coq Require Import Reals List Bool String.
From Verif Require Import Model_X Model_Likelihood Model_Sage.
Import ListNotations.
Open Scope R_scope.

Definition keep_finite_weights (l : list X) : list (bool * X) :=
  map (fun a => (negb (isneginf a), a)) l.

(** monte_carlo_log_estimate_and_error_sq, analyticallikelihood.py:29-51 *)
Definition mc_estimate (log_probs : list X) (N : R) : X * X :=
  let mask := map (fun a => negb (isneginf a)) log_probs in
  let log_moment_1 := xsub (logsumexp_where (combine mask log_probs)) (xln (Fin N)) in
  let moment_2 :=
      xdiv (xexp (logsumexp_where (combine mask (map (xmul (Fin 2)) log_probs)))) (Fin N) in
  let error_sq := xdiv (xsub moment_2 (xexp (xmul (Fin 2) log_moment_1))) (Fin (N - 1)) in
  (log_moment_1, error_sq).

(** combine_monte_carlo_log_estimates, analyticallikelihood.py:54-83 *)
Definition combine_log_estimates (log_estimates_1 log_estimates_2 : X) (N_1 N_2 : R) : X :=
  xsub (logaddexp (xadd (xln (Fin N_1)) log_estimates_1) (xadd (xln (Fin N_2)) log_estimates_2))
       (xln (Fin (N_1 + N_2))).

(** combine_monte_carlo_errors_sq, analyticallikelihood.py:86-134 *)
Definition combine_errors_sq (error_1_sq error_2_sq log_estimate_1 log_estimate_2 log_estimate_3 : X)
           (N_1 N_2 : R) : X :=
  let N_3 := N_1 + N_2 in
  let sum_prob_sq_1 :=
      xmul (Fin N_1) (xadd (xmul (Fin (N_1 - 1)) error_1_sq) (xexp (xmul (Fin 2) log_estimate_1))) in
  let sum_prob_sq_2 :=
      xmul (Fin N_2) (xadd (xmul (Fin (N_2 - 1)) error_2_sq) (xexp (xmul (Fin 2) log_estimate_2))) in
  let combined := xdiv (xopp (xexp (xmul (Fin 2) log_estimate_3))) (Fin (N_3 - 1)) in
  xadd combined (xdiv (xdiv (xadd sum_prob_sq_1 sum_prob_sq_2) (Fin N_3)) (Fin (N_3 - 1))).

(** running values: (log_estimate, error_sq, sample count); StateT, analyticallikelihood.py:19-26,
    without the key *)
Definition mc_values := (X * X * R)%type.

(** state_0, analyticallikelihood.py:395-400 *)
Definition mc_start : mc_values := (NInf, Fin 0, 0).

(** analyticallikelihood.py:374-393: fold one batch of log weights into the running values *)
Definition mc_step (s : mc_values) (log_prob : list X) : mc_values :=
  let '(log_estimate_1, error_1_sq, N_1) := s in
  let N_2 := INR (List.length log_prob) in
  let '(log_estimate_2, error_2_sq) := mc_estimate log_prob N_2 in
  let log_estimate_3 := combine_log_estimates log_estimate_1 log_estimate_2 N_1 N_2 in
  let error_3_sq :=
      combine_errors_sq error_1_sq error_2_sq log_estimate_1 log_estimate_2 log_estimate_3 N_1 N_2 in
  (log_estimate_3, error_3_sq, N_1 + N_2).

Section Loop.
(** PRNG keys and jrd.split; the log importance weights of the [n_samples] points drawn from a
    subkey, analyticallikelihood.py:350-373.  Drawing and the densities are parameters: any
    weights may come out. *)
Variable K : Type.
Variable split : K -> K * K.
Variable log_weights : K -> list X.

Definition loop_state := (mc_values * K)%type.

(** while_body_fn, analyticallikelihood.py:345-393 *)
Definition while_body (s : loop_state) : loop_state :=
  let '(rng_key, subkey) := split (snd s) in
  (mc_step (fst s) (log_weights subkey), rng_key).

Definition error_of (s : loop_state) : X := snd (fst (fst s)).
Definition log_estimate_of (s : loop_state) : X := fst (fst (fst s)).

(** cond_fun, analyticallikelihood.py:403 *)
Definition loop_cond (minimum_mc_error_sq : R) (s : loop_state) : bool :=
  xleb (error_of s) (Fin minimum_mc_error_sq).

(** eqx.internal.while_loop(cond, body, init, max_steps): at most [max_steps] iterations *)
Fixpoint while_loop (cond : loop_state -> bool) (body : loop_state -> loop_state)
         (max_steps : nat) (s : loop_state) : loop_state :=
  match max_steps with
  | O => s
  | S k => if cond s then while_loop cond body k (body s) else s
  end.

(** one event, analyticallikelihood.py:395-409; [n_max_steps >= 1] *)
Definition event_loop (minimum_mc_error_sq : R) (n_max_steps : nat) (rng_key : K) : loop_state :=
  while_loop (loop_cond minimum_mc_error_sq) while_body (n_max_steps - 1)
             (while_body (mc_start, rng_key)).

End Loop.
Arguments while_body {K}.
Arguments error_of {K}.
Arguments log_estimate_of {K}.
Arguments loop_cond {K}.
Arguments while_loop {K}.
Arguments event_loop {K}.

(** analytical_likelihood, analyticallikelihood.py:279-434.  The model instance only enters
    through the expected rate and the log weights of each event; [weights i] are those of
    event [i].  [keys] is jrd.split(rng_key, (n_events,)). *)
Definition analytical_likelihood {K} (split : K -> K * K) (minimum_mc_error : R)
           (n_max_steps : nat) (T_obs : R) (prior_lp : list X -> X) (expected_rates : list X -> X)
           (weights : list X -> nat -> K -> list X) (keys : list K) (x : list X) : X :=
  let minimum_mc_error_sq := minimum_mc_error * minimum_mc_error in
  let n_events := List.length keys in
  let total :=
      fold_left
        (fun carry p =>
           xadd carry (log_estimate_of (event_loop split (weights x (fst p)) minimum_mc_error_sq
                                                   n_max_steps (snd p))))
        (combine (seq 0 n_events) keys)
        (xmul (Fin (INR n_events)) (xln (Fin T_obs))) in
  nan_to_neginf (xadd (prior_lp x) (xsub total (expected_rates x))).

(** jax.lax.map(f, xs, batch_size=b): vmap over full batches and the remainder, results
    concatenated; without a batch size, or one not smaller than the data, a plain map *)
Definition lax_map {A B} (f : A -> B) (xs : list A) (batch_size : option nat) : option (list B) :=
  match batch_size with
  | None => Some (map f xs)
  | Some b =>
    match batch_and_remainder xs b with
    | None => None
    | Some (bs, rem) => Some (List.concat (map (map f) bs) ++ map f rem)%list
    end
  end.

(** jnp.where(isneginf | isnan, -inf, log_prob), _injection_based.py:80-84 *)
Definition safe_log_prob (a : X) : X := if isneginf a || isnan a then NInf else a.

(** _poisson_mean, _injection_based.py:71-93; [injections]: sample and log draw density *)
Definition injection_poisson_mean {A} (log_prob : A -> X) (injections : list (A * X))
           (batch_size : option nat) (T total : R) : option X :=
  match lax_map log_prob (map fst injections) batch_size with
  | None => None
  | Some model_log_prob =>
    let lp := map safe_log_prob (map2 xsub model_log_prob (map snd injections)) in
    let lse := logsumexp_where (keep_finite_weights lp) in
    Some (xdiv (xmul (Fin T) (xexp lse)) (Fin total))
  end.

(** _variance_of_estimator, _injection_based.py:95-132 *)
Definition injection_variance {A} (log_prob : A -> X) (injections : list (A * X))
           (batch_size : option nat) (T total : R) : option X :=
  match lax_map log_prob (map fst injections) batch_size with
  | None => None
  | Some model_log_prob =>
    let lp := map safe_log_prob (map2 xsub model_log_prob (map snd injections)) in
    let mask := map (fun a => negb (isneginf a)) lp in
    let lse := logsumexp_where (combine mask lp) in
    let lse2 := logsumexp_where (combine mask (map (xmul (Fin 2)) lp)) in
    let term2 := xexp (xadd (xsub (xmul (Fin 2) (xln (Fin T))) (xmul (Fin 3) (xln (Fin total))))
                            (xmul (Fin 2) lse)) in
    let term1 := xexp (xadd (xsub (xmul (Fin 2) (xln (Fin T))) (xmul (Fin 2) (xln (Fin total))))
                            lse2) in
    Some (xsub term1 term2)
  end.
