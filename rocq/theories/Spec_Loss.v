(** Vocabulary of C151. *)
From Coq Require Import List Reals.
Import ListNotations.
Open Scope R_scope.
Definition average (l : list R) : R := fold_right Rplus 0 l / INR (length l).
(** a table with one column *)
Definition column (l : list R) : list (list R) := map (fun y => [y]) l.
(** the network gives c on every row *)
Definition always (model : list R -> list R) (xs : list (list R)) (c : R) : Prop := forall x, In x xs -> model x = [c].
