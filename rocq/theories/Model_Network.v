(** gwkokab/utils/train.py: the networks that make_model (73-90) and load_model (127-154) build, predict (55-58) and
    the loss per data instance (407-408).  Exact arithmetic. *)
From Coq Require Import String List ZArith Reals.
From Verif Require Import Model_Train.
Import ListNotations.
Open Scope R_scope.

(** eqx.nn.Linear, external: one row of weights and one bias for each output *)
Definition linear := (list (list R) * list R)%type.
Definition dot (w x : list R) : R := fold_right Rplus 0 (map (fun p => fst p * snd p) (combine w x)).
Definition apply_linear (l : linear) (x : list R) : list R := map (fun p => dot (fst p) x + snd p) (combine (fst l) (snd l)).
(** jax.nn.relu, external *)
Definition relu (x : R) : R := Rmax x 0.
(** eqx.nn.MLP.__call__, external: the activation after every layer but the last *)
Fixpoint forward (activation : R -> R) (ls : list linear) (x : list R) : list R :=
  match ls with
  | [] => x
  | [l] => apply_linear l x
  | l :: t => forward activation t (map activation (apply_linear l x))
  end.
(** eqx.nn.MLP.__init__, external: (outputs, inputs) of each layer *)
Definition layer_sizes (in_size out_size width_size depth : nat) : list (nat * nat) :=
  match depth with
  | O => [(out_size, in_size)]
  | S d => (width_size, in_size) :: repeat (width_size, width_size) d ++ [(out_size, width_size)]
  end.
(** a network: its layers are those of Model_Train.mlp *)
Definition network := mlp (list (list R)) (list R).
(** lines 82-90 and 136-143: the activation of a network that make_model has built and of one that load_model has built *)
Definition trained (m : network) : list R -> list R := forward relu (layers m).
Definition loaded (m : network) : list R -> list R := forward relu (layers m).
(** predict, 55-58: jax.lax.map (external) runs whole batches one after the other and then the remainder *)
Fixpoint whole_batches {A} (count b : nat) (xs : list A) : list (list A) :=
  match count with O => [] | S k => firstn b xs :: whole_batches k b (skipn b xs) end.
Definition lax_map {A B} (f : A -> B) (xs : list A) (b : nat) : list B :=
  let k := (List.length xs / b)%nat in
  (concat (map (map f) (whole_batches k b xs)) ++ map f (skipn (k * b) xs))%list.
Definition predict (model : list R -> list R) (xs : list (list R)) (batch_size : nat) : list (list R) := lax_map model xs batch_size.
(** 407-408: the squared differences, whose last axis must have length one; None is the ValueError of squeeze.
    The rows of data_Y have the length of the output *)
Definition squeeze_last (rows : list (list R)) (width : nat) : option (list R) :=
  if (width =? 1)%nat then Some (map (fun r => nth 0 r 0) rows) else None.
Definition per_instance (model : list R -> list R) (data_X data_Y : list (list R)) (n_outputs : nat) : option (list R) :=
  squeeze_last (map (fun p => map (fun q => (fst q - snd q) ^ 2) (combine (fst p) (snd p))) (combine data_Y (predict model data_X 256))) n_outputs.
