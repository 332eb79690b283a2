(** Vocabulary for C129: numerals, and the rows a chain goes through. *)
From Coq Require Import String Ascii List Arith Reals.
From Verif Require Import Model_X.
Import ListNotations.
Open Scope nat_scope.

(** the value of a string of decimal digits, most significant first *)
Fixpoint read_digits (acc : nat) (s : string) : option nat :=
  match s with
  | EmptyString => Some acc
  | String c s' => let d := nat_of_ascii c in
                   if (48 <=? d) && (d <=? 57) then read_digits (10 * acc + (d - 48)) s' else None
  end%bool.
Definition numeral (s : string) (n : nat) : Prop := s <> EmptyString /\ read_digits 0 s = Some n.
(** the number of digits needed for the numbers below n *)
Definition enough_digits (n w : nat) : Prop := n <= 10 ^ w /\ forall v, 0 < v < w -> 10 ^ v < n.

(** what a chain goes through in loops first, ..., first + n - 1: in each the rows of the local steps,
    then those of the global steps *)
Definition history (local_ global_ : nat -> nat -> list (list X)) (first n c : nat) : list (list X) :=
  concat (map (fun k => local_ k c ++ global_ k c) (seq first n)).

(** the mean of a quantity over the chains *)
Definition chain_mean (n_chains : nat) (a : nat -> R) : R :=
  (fold_right Rplus 0 (map a (seq 0 n_chains)) / INR n_chains)%R.
