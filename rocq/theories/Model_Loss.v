(** gwkokab/utils/train.py: the two loss functions on a batch of rows, mse_loss_fn (26-33) and bce_logits_loss_fn (36-52).
    Exact arithmetic; eqx.filter_value_and_grad (gradients) is left out. *)
From Coq Require Import List ZArith Reals.
From Verif Require Import Model_Train Model_Network.
Import ListNotations.
Open Scope R_scope.

(** jnp.mean over all entries, external *)
Definition jnp_mean (rows : list (list R)) : R := fold_right Rplus 0 (concat rows) / INR (length (concat rows)).
(** an elementwise function of the targets and the outputs, which have the same shape *)
Definition elementwise (f : R -> R -> R) (y out : list (list R)) : list (list R) :=
  map (fun p => map (fun q => f (fst q) (snd q)) (combine (fst p) (snd p))) (combine y out).
(** mse_loss_fn, 32-33 *)
Definition mse_loss (model : list R -> list R) (x y : list (list R)) : R :=
  jnp_mean (elementwise (fun y out => (y - out) ^ 2) y (predict model x 256)).
(** bce_logits_loss_fn, 49-52 *)
Definition bce_logits_loss (model : list R -> list R) (x y : list (list R)) (eps : R) : R :=
  jnp_mean (elementwise (fun y out => bce_logits eps out y) y (predict model x 256)).
