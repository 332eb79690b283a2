(** Vocabulary for the smoothed mass models between the nodes of their tables. *)
From Coq Require Import Reals List.
From Verif Require Import Spec_Density Spec_SmoothedDensity.
Open Scope R_scope.

(** the sum over the ratios of q^beta times the taper of the secondary mass *)
Definition ratio_sum (beta delta mmin m1 : R) : R :=
  trapezoid_sum (fun q => Rpower q beta * planck ((m1 * q - mmin) / delta)) (nodes (5 / 1000) 1 500).
(** [a] and [b] are neighbours in the table *)
Definition neighbours (xs : list R) (a b : R) : Prop := exists l r, xs = (l ++ a :: b :: r)%list.
