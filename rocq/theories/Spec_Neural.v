(** What the neural expected-count estimators should return. *)
From Coq Require Import String Reals List.
From Verif Require Import Model_X Spec_X Spec_MonteCarlo Model_Guru Model_Neural.
Import ListNotations.
Open Scope R_scope.

(** the value of the event [x], whose entries are named by [parameters], under [name] *)
Definition named (parameters : list string) (x : list X) (name : string) : option X :=
  dget (combine parameters x) name.
(** the input of a network that expects [names] *)
Definition network_input (parameters names : list string) (x : list X) : option (list X) :=
  map_opt (named parameters x) names.

(** mean squared deviation from the mean *)
Definition population_variance (w : list R) : R :=
  rsum (map (fun x => (x - mean w) * (x - mean w)) w) / INR (length w).

(** sum over components of rate * normaliser * mean of [f] over the component's samples, times T *)
Definition expected_count (T : R) (norm : ndist -> R) (f : list X -> R) (mix : list ncomponent) : R :=
  T * rsum (map (fun c => exp (nc_log_scale c) * norm (nc_dist c) * mean (map f (nc_samples c))) mix).
(** the variance of that estimate for independent samples: per component the variance of one term
    over the number of samples *)
Definition count_variance (T : R) (norm : ndist -> R) (f : list X -> R) (mix : list ncomponent) : R :=
  rsum (map (fun c => (T * exp (nc_log_scale c) * norm (nc_dist c)) ^ 2
                      * (population_variance (map f (nc_samples c)) / INR (length (nc_samples c)))) mix).

(** the normaliser of the redshift distribution of a component, 1 without one *)
Fixpoint redshift_norm_of (ms : list nmarginal) : X :=
  match ms with
  | [] => Fin 0
  | PowerlawZ l :: _ | MadauDickinsonZ l :: _ => l
  | OtherMarginal :: t => redshift_norm_of t
  end.
Definition redshift_norm (d : ndist) : X :=
  match d with NJoint ms => redshift_norm_of ms | NSingle m => redshift_norm_of [m] end.
(** components whose redshift model is a power law inside a joint distribution, or absent *)
Definition only_powerlaw (d : ndist) : Prop :=
  match d with
  | NJoint ms => forall l, ~ In (MadauDickinsonZ l) ms
  | NSingle m => m = OtherMarginal
  end.
