(** Vocabulary for the loader of posterior samples. *)
From Coq Require Import String.
From Coq Require Import Reals List Bool.
From Verif Require Import Model_X Model_Injections Spec_Injections Model_Discrete.
Import ListNotations.
Open Scope R_scope.
(** coordinates in which the declared prior is flat, as functions of mass coordinates [c] at redshift [z] *)
Definition flat_1 (mp : mass_prior_t) (c : mass_coords) (z u v : R) : R :=
  let m1 := source_mass_1 c z u v in
  let m2 := source_mass_2 c z u v in
  match mp with
  | FlatSourceComponents => m1
  | FlatDetectorComponents => m1 * (1 + z)
  | FlatDetectorChirpRatio => m1 * (1 + z) / primary_over_chirp (m2 / m1)
  end.
Definition flat_2 (mp : mass_prior_t) (c : mass_coords) (z u v : R) : R :=
  let m1 := source_mass_1 c z u v in
  let m2 := source_mass_2 c z u v in
  match mp with
  | FlatSourceComponents => m2
  | FlatDetectorComponents => m2 * (1 + z)
  | FlatDetectorChirpRatio => m2 / m1
  end.
(** the row has, under the aliases, the mass coordinates (u, v) and the redshift; other mass columns may
    be there too as long as they agree *)
Definition row_has (self : loader) (r : list (string * X)) (c : mass_coords) (z u v : R) : Prop :=
  let get := fun p => dget r (alias self p) in
  get (first_name c) = Some (Fin u) /\ get (second_name c) = Some (Fin v) /\ get "redshift"%string = Some (Fin z)
  /\ (forall q, get "mass_ratio"%string = Some q -> q = Fin (source_mass_2 c z u v / source_mass_1 c z u v))
  /\ (forall m, get "mass_1_source"%string = Some m -> m = Fin (source_mass_1 c z u v) /\ (get "mass_ratio"%string = None -> get "mass_2_source"%string = Some (Fin (source_mass_2 c z u v)))).
(** combinations for which the log prior is right *)
Definition handled (mp : mass_prior_t) (c : mass_coords) : Prop :=
  match c, mp with
  | (SourceMasses | SourceRatio), _ => True
  | (DetectedMasses | DetectedRatio), (FlatDetectorComponents | FlatDetectorChirpRatio) => True
  | _, _ => False
  end.
