(** Vocabulary for distributions on the whole line. *)
From Coq Require Import Reals.
From Coquelicot Require Import Coquelicot.
Open Scope R_scope.

(** the integral of [f] over the whole line is [v] *)
Definition over_line (f : R -> R) (v : R) : Prop := is_RInt_gen f (Rbar_locally m_infty) (Rbar_locally p_infty) v.
(** iterated integral over the plane *)
Definition over_plane (f : R -> R -> R) (v : R) : Prop :=
  exists g : R -> R, (forall x, over_line (f x) (g x)) /\ over_line g v.
