(** Vocabulary of C150: sizes of layers and networks, and the largest sum of absolute weights. *)
From Coq Require Import List ZArith Reals.
Import ListNotations.
Open Scope R_scope.

(** a matrix with o rows of i weights and o biases *)
Definition has_size (layer : list (list R) * list R) (s : nat * nat) : Prop :=
  length (fst layer) = fst s /\ length (snd layer) = fst s /\ forall w, In w (fst layer) -> length w = snd s.
(** no output of the layer has weights whose absolute values sum to more than g *)
Definition gain_at_most (layer : list (list R) * list R) (g : R) : Prop :=
  0 <= g /\ forall w, In w (fst layer) -> fold_right (fun a s => Rabs a + s) 0 w <= g.
Definition product (l : list R) : R := fold_right Rmult 1 l.
(** no coordinate of the two vectors differs by more than e *)
Definition within (e : R) (x y : list R) : Prop := length x = length y /\ forall k, Rabs (nth k x 0 - nth k y 0) <= e.
(** y is the output of one linear layer: biases plus the sums over the inputs *)
Definition layer_output (layer : list (list R) * list R) (x y : list R) : Prop :=
  length y = length (snd layer) /\ forall k, (k < length y)%nat ->
  nth k y 0 = nth k (snd layer) 0 + fold_right Rplus 0 (map (fun j => nth j (nth k (fst layer) []) 0 * nth j x 0) (seq 0 (length x))).
(** y is the output of the network: negative values become zero after every layer but the last *)
Inductive computes : list (list (list R) * list R) -> list R -> list R -> Prop :=
| last_layer l x y : layer_output l x y -> computes [l] x y
| hidden_layer l t x h y : t <> [] -> layer_output l x h -> computes t (map (fun a => (a + Rabs a) / 2) h) y -> computes (l :: t) x y.
