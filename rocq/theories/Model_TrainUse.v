(** From training to use of a detection network: what train_regressor (gwkokab/utils/train.py) minimises.
    The estimators that load the network are in Model_Neural.v; they read no attribute of its file
    (load_model, lines 127-154, in Model_Train.v). *)
From Coq Require Import String Ascii List Reals.
From Verif Require Import Model_X Model_Train Model_Settings.
Import ListNotations.
Open Scope R_scope.

Inductive loss := MSE | BCE.
(** lines 305-312; None: ValueError *)
Definition choose_loss (loss_type : string) : option loss :=
  if String.eqb (lower loss_type) "mse" then Some MSE
  else if existsb (String.eqb (lower loss_type)) ["bce"; "bce_logits"; "bcelogits"]%string then Some BCE
  else None.
(** the training target of a data value, lines 238-245; [tiny] is finfo.tiny *)
Definition target (tiny : R) (train_in_log : bool) (y : X) : X :=
  if train_in_log then log_target tiny y else y.
(** the loss of one row with one output: mse_loss_fn, lines 26-34, bce_logits_loss_fn, lines 37-53 *)
Definition row_loss (l : loss) (t out : R) : R :=
  match l with
  | MSE => (t - out) ^ 2
  | BCE => bce_logits (1/1000000) out t
  end.
