(** Vocabulary: a network that learned its training data. *)
From Coq Require Import String Reals.
From Verif Require Import Model_X Model_TrainUse.
Open Scope R_scope.

(** [out] is the best answer for a row with data value [y], under the loss and targets chosen *)
Definition learned (tiny : R) (loss_type : string) (train_in_log : bool) (y out : R) : Prop :=
  exists l t, choose_loss loss_type = Some l /\ target tiny train_in_log (Fin y) = Fin t
  /\ forall other, row_loss l t out <= row_loss l t other.
