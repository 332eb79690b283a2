(** Vocabulary for C49 and C116: gradients and the kinetic energy. *)
From Coq Require Import Reals List Arith.
From Coquelicot Require Import Coquelicot.
Open Scope R_scope.
Notation vec := (nat -> R) (only parsing).

(** [g] is the gradient of [K] *)
Definition gradient_of (K : vec -> R) (g : vec -> vec) : Prop :=
  forall p i, is_derive (fun t => K (fun j => if (j =? i)%nat then t else p j)) (p i) (g p i).
(** the kinetic energy of the code, one half of p . M^-1 p for vectors of n coordinates *)
Definition quadratic (n : nat) (Minv : nat -> nat -> R) (p : vec) : R :=
  / 2 * fold_right Rplus 0 (map (fun i => p i * fold_right Rplus 0 (map (fun j => Minv i j * p j) (seq 0 n))) (seq 0 n)).
