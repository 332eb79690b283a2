(** The importance sampling of gwkokab/inference/analyticallikelihood.py: the normal fitted to an
    event and the population model, the samples drawn from it and their log weights.  The loop over
    batches and the sum over events are in Model_MonteCarlo.v.

    Vectors and matrices are those of mathcomp over the real numbers; the leading event axis of the
    stacked arrays is dropped (every operation acts on one event).  A singular matrix, for which
    jnp.linalg.inv gives infinities or NaN, is left as it is by [invmx]. *)
From Coq Require Import Reals List.
From mathcomp Require Import ssreflect ssrfun ssrbool eqtype ssrnat fintype bigop ssralg matrix.
From Verif Require Import Model_X Model_MonteCarlo Model_RealRing.
Import GRing.Theory.
Delimit Scope R_scope with re.
Local Open Scope ring_scope.

Section MVN.
Context {n : nat}.
Notation vec := 'cV[R]_n.
Notation mat := 'M[R]_n.

(** mvn_samples, analyticallikelihood.py:160-162: one sample, for the standard normal draws [eps] *)
Definition mvn_sample (loc : vec) (scale_tril : mat) (eps : vec) : vec := loc + scale_tril *m eps.
(** numpyro's _batch_mahalanobis: solve_triangular, then the sum of squares *)
Definition mahalanobis (scale_tril : mat) (x : vec) : R :=
  let y := invmx scale_tril *m x in \sum_i (y i ord0 * y i ord0).
(** numpyro's tri_logabsdet *)
Definition tri_logabsdet (scale_tril : mat) : R := \sum_i ln (Rabs (scale_tril i i)).
(** mvn_log_prob_scaled, 165-170 *)
Definition mvn_log_prob_scaled (loc : vec) (scale_tril : mat) (value : vec) : R :=
  (- (1 / 2) * mahalanobis scale_tril (value - loc)%R - tri_logabsdet scale_tril)%re.
(** precision_matrix, 178-181: cho_solve((L, True), I) solves (L L^T) X = I *)
Definition precision_matrix (scale_tril : mat) : mat := invmx (scale_tril *m scale_tril^T).

(** jax.grad and jax.hessian of model_instance.log_prob; is_positive_semi_definite, 184-200;
    numpyro's cholesky_of_inverse *)
Variable hessian_log_prob : vec -> mat.
Variable grad_log_prob : vec -> vec.
Variable is_positive_semi_definite : mat -> bool.
Variable cholesky_of_inverse : mat -> mat.

(** 305-307 *)
Definition fit_precision_matrix (mean : vec) (scale_tril : mat) : mat :=
  precision_matrix scale_tril - hessian_log_prob mean.
(** 308 *)
Definition fit_covariance_matrix mean scale_tril : mat := invmx (fit_precision_matrix mean scale_tril).
Definition is_psd mean scale_tril : bool := is_positive_semi_definite (fit_covariance_matrix mean scale_tril).
(** 310-319 *)
Definition safe_fit_covariance_matrix mean scale_tril : mat :=
  if is_psd mean scale_tril then fit_covariance_matrix mean scale_tril else 1%:M.
(** 321-329 *)
Definition fit_mean mean scale_tril : vec :=
  mean + (if is_psd mean scale_tril then safe_fit_covariance_matrix mean scale_tril *m grad_log_prob mean else 0).
(** 330-334 *)
Definition fit_scale_tril mean scale_tril : mat :=
  if is_psd mean scale_tril then cholesky_of_inverse (fit_precision_matrix mean scale_tril) else scale_tril.

(** model_instance.log_prob *)
Variable log_prob : vec -> X.
(** 358-373: log weight of a sample [x] drawn from the fit *)
Definition log_weight (mean : vec) (scale_tril : mat) (x : vec) : X :=
  let model_instance_log_prob := log_prob x in
  let event_mvn_log_prob := mvn_log_prob_scaled mean scale_tril x in
  let fit_mvn_log_prob := mvn_log_prob_scaled (fit_mean mean scale_tril) (fit_scale_tril mean scale_tril) x in
  xsub (xadd model_instance_log_prob (Fin event_mvn_log_prob)) (Fin fit_mvn_log_prob).

(** jrd.normal(key, (n_samples, n)) *)
Variable K : Type.
Variable normal : K -> list vec.
(** 350-356: the samples drawn from a subkey *)
Definition fit_samples mean scale_tril (subkey : K) : list vec :=
  List.map (mvn_sample (fit_mean mean scale_tril) (fit_scale_tril mean scale_tril)) (normal subkey).
(** 350-373: their log weights *)
Definition event_log_weights mean scale_tril (subkey : K) : list X :=
  List.map (log_weight mean scale_tril) (fit_samples mean scale_tril subkey).
End MVN.
