(** Vocabulary of the statements about shapes. *)
From Coq Require Import List Arith.
From Verif Require Import Model_Shapes.
Import ListNotations.

(** the length of an array along its i-th axis, counted from the last; an axis it does not have counts as 1 *)
Definition along (s : shp) (i : nat) : nat := nth i (rev s) 1.
(** [c] is the common shape of the arrays: each fits, and no axis of [c] is without need *)
Definition common_shape (l : list shp) (c : shp) : Prop :=
  length c = list_max (map (@length nat) l) /\
  (forall s i, In s l -> along s i = 1 \/ along s i = along c i) /\
  (forall i, along c i = 1 \/ exists s, In s l /\ along s i = along c i).
Definition scalars (l : list shp) : Prop := forall s, In s l -> s = [].

(** log_prob of values of shape [s] (and the axes of the event) has the common shape of [s] and the batch, and fails
    exactly when they have none *)
Definition density_as_declared (d : dist) : Prop :=
  forall s c, log_prob d (s ++ event d) = Some c <-> common_shape [s; batch d] c.
(** sample(key, shape) has the shape asked for, followed by the axes of the batch and those of the event *)
Definition draws_as_declared (d : dist) : Prop :=
  forall ss, ~ In 0 ss -> sample d ss = Some (ss ++ batch d ++ event d).
(** a number or a vector *)
Definition flat (e : shp) : Prop := length e <= 1.
