(** Model of the expected-count estimators that use a neural network,
    gwkokab/poisson_mean/_neural_vt.py and _neural_pdet.py.  Not modelled: type checks of the
    arguments, batching of the network calls (it does not change values), jit. *)
From Coq Require Import String Reals List Bool Arith.
From Verif Require Import Model_X Model_Guru.
Import ListNotations.
Open Scope R_scope.

(** what the estimator sees of a distribution: redshift models with the value of their log_norm() *)
Inductive nmarginal := PowerlawZ (log_norm : X) | MadauDickinsonZ (log_norm : X) | OtherMarginal.
Inductive ndist := NJoint (marginals : list nmarginal) | NSingle (m : nmarginal).
(** one component of a ScaledMixture: log_scale, distribution, and its column of component_sample *)
Record ncomponent := mknc { nc_log_scale : R; nc_dist : ndist; nc_samples : list (list X) }.

Section Neural.
(** the loaded network, one output (jnp.squeeze) *)
Variable network : list X -> X.

(** checks and shuffle_indices, _neural_vt.py:33-60, _neural_pdet.py:34-61; None raises *)
Definition shuffle_indices (parameters names : list string) : option (list nat) :=
  match parameters with
  | [] => None
  | _ => map_opt (index_of parameters) names
  end.
(** x[..., shuffle_indices] *)
Definition columns (indices : list nat) (x : list X) : list X := map (fun i => nth i x NaN) indices.

(** log_vt, _neural_vt.py:62-67 *)
Definition log_vt (indices : list nat) (x : list X) : X := network (columns indices x).
(** log_pdet, _neural_pdet.py:63-71 *)
Definition log_pdet (indices : list nat) (x : list X) : X :=
  let y_new := network (columns indices x) in
  let mask := xleb y_new (Fin 0) in
  let safe_y_new := if mask then Fin 1 else y_new in
  if mask then NInf else xln safe_y_new.

(** the loop over the components, _neural_pdet.py:78-88 and 103-113 *)
Fixpoint first_powerlaw (ms : list nmarginal) : X :=
  match ms with
  | [] => Fin 0
  | PowerlawZ log_norm :: _ => log_norm
  | _ :: t => first_powerlaw t
  end.
Definition redshift_log_norm (d : ndist) : X :=
  match d with NJoint ms => first_powerlaw ms | NSingle _ => Fin 0 end.

(** _poisson_mean, _neural_vt.py:69-76 *)
Definition vt_poisson_mean (time_scale : R) (num_samples : nat) (indices : list nat) (mix : list ncomponent) : X :=
  let mean_per_component :=
    map (fun c => xexp (xadd (Fin (nc_log_scale c)) (logsumexp (map (log_vt indices) (nc_samples c))))) mix in
  xmul (xdiv (Fin time_scale) (Fin (INR num_samples))) (xsum mean_per_component).
(** _variance_of_estimator, _neural_vt.py:78-95 *)
Definition vt_variance (time_scale : R) (num_samples : nat) (indices : list nat) (mix : list ncomponent) : X :=
  xsum (map (fun c =>
    let log_vt_values := map (log_vt indices) (nc_samples c) in
    let term2 := xexp (xadd (xadd (xsub (xmul (Fin 2) (xln (Fin time_scale))) (xmul (Fin 3) (xln (Fin (INR num_samples)))))
                                  (xmul (Fin 2) (Fin (nc_log_scale c))))
                            (xmul (Fin 2) (logsumexp log_vt_values))) in
    let term1 := xexp (xadd (xadd (xsub (xmul (Fin 2) (xln (Fin time_scale))) (xmul (Fin 2) (xln (Fin (INR num_samples)))))
                                  (xmul (Fin 2) (Fin (nc_log_scale c))))
                            (logsumexp (map (xmul (Fin 2)) log_vt_values))) in
    xsub term1 term2) mix).

(** _poisson_mean, _neural_pdet.py:73-95 *)
Definition pdet_poisson_mean (time_scale : R) (num_samples : nat) (indices : list nat) (mix : list ncomponent) : X :=
  let mean_per_component :=
    map (fun c => xexp (xadd (xadd (Fin (nc_log_scale c)) (redshift_log_norm (nc_dist c)))
                             (logsumexp (map (log_pdet indices) (nc_samples c))))) mix in
  xmul (xdiv (Fin time_scale) (Fin (INR num_samples))) (xsum mean_per_component).
(** _variance_of_estimator, _neural_pdet.py:97-130 *)
Definition pdet_variance (time_scale : R) (num_samples : nat) (indices : list nat) (mix : list ncomponent) : X :=
  xsum (map (fun c =>
    let log_pdet_values := map (log_pdet indices) (nc_samples c) in
    let norm := redshift_log_norm (nc_dist c) in
    let term2 := xexp (xadd (xadd (xadd (xsub (xmul (Fin 2) (xln (Fin time_scale))) (xmul (Fin 3) (xln (Fin (INR num_samples)))))
                                        (xmul (Fin 2) (Fin (nc_log_scale c))))
                                  (xmul (Fin 2) norm))
                            (xmul (Fin 2) (logsumexp log_pdet_values))) in
    let term1 := xexp (xadd (xadd (xadd (xsub (xmul (Fin 2) (xln (Fin time_scale))) (xmul (Fin 2) (xln (Fin (INR num_samples)))))
                                        (xmul (Fin 2) (Fin (nc_log_scale c))))
                                  (xmul (Fin 2) norm))
                            (logsumexp (map (xmul (Fin 2)) log_pdet_values))) in
    xsub term1 term2) mix).
End Neural.
