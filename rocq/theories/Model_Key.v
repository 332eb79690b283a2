(** Random keys (jax.random).

    A key is either made from a seed or the [i]-th key obtained by splitting another key.
    [jax.random.split(key, n)] is the list of the first [n] children; a child depends on its
    index only, not on how many siblings were requested (this is the behaviour of the default
    partitionable threefry generator, and the less favourable choice for distinctness claims).
    Distinct positions in the split tree are taken to be distinct keys; hash collisions of the
    generator are not modelled. *)
From Coq Require Import List ZArith.
Import ListNotations.

Inductive rng : Type :=
  | Seed (seed : Z)
  | Child (parent : rng) (index : nat).

(** jax.random.split(key, num) *)
Definition split_n (k : rng) (num : nat) : list rng := map (Child k) (seq 0 num).
(** key, subkey = jax.random.split(key) *)
Definition split2 (k : rng) : rng * rng := (Child k 0, Child k 1).
