(** Vocabulary of the statements about distances: the Friedmann equation and its distance integral. *)
From Coq Require Import Reals.
From Coquelicot Require Import Coquelicot.
Open Scope R_scope.

(** expansion rate at redshift z: matter, radiation, curvature and dark energy add up to one today *)
Definition hubble (Ho Om Or Ol z : R) : R :=
  Ho * sqrt (Om * (1 + z) ^ 3 + Or * (1 + z) ^ 4 + (1 - Om - Or - Ol) * (1 + z) ^ 2 + Ol).
(** line-of-sight comoving distance and (flat) luminosity distance *)
Definition comoving_distance (c Ho Om Or Ol z : R) : R := RInt (fun t => c / hubble Ho Om Or Ol t) 0 z.
Definition luminosity_distance (c Ho Om Or Ol z : R) : R := (1 + z) * comoving_distance c Ho Om Or Ol z.
