(** Vocabulary for statements about random keys. *)
From Coq Require Import List.
From Verif Require Import Model_Key.
Import ListNotations.

(** [ancestor a b]: [b] is [a] or was obtained from [a] by splitting *)
Inductive ancestor (a : rng) : rng -> Prop :=
  | anc_self : ancestor a a
  | anc_split : forall b i, ancestor a b -> ancestor a (Child b i).

(** Random numbers drawn with two keys are unrelated when neither key was obtained from the other: then whatever is
    derived from the one differs from whatever is derived from the other. (Drawing with a key and also splitting it
    is what jax.random forbids: the bits drawn are those of the children.) *)
Definition independent (a b : rng) : Prop := ~ ancestor a b /\ ~ ancestor b a.
Definition all_independent (l : list rng) : Prop := ForallOrdPairs independent l.
Definition all_from (root : rng) (l : list rng) : Prop := Forall (ancestor root) l.
(** a function that is given a key, draws with some keys and returns another: all of them are made from the given one
    and no two are related *)
Definition keeps_apart (f : rng -> rng * list rng) : Prop :=
  forall k, all_independent (fst (f k) :: snd (f k)) /\ all_from k (fst (f k) :: snd (f k)).
