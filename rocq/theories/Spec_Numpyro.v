(** Vocabulary for the statements about saved chains. *)
From Coq Require Import String List Arith Reals.
From Verif Require Import Model_Key Model_Numpyro.
Import ListNotations.
Open Scope nat_scope.

(** how many of the effects touch a path *)
Definition path_of (o : op) : string := match o with Write p _ => p | Append p _ => p end.
Definition touches (p : string) (l : list op) : nat := length (filter (fun o => String.eqb (path_of o) p) l).

(** a sampler that returns, for every label, as many chains as requested and [d] draws each;
    [value key m l c t] is the value of label [l] in draw [t] of chain [c] *)
Definition samples_of (mcmc : rng -> nat -> string -> option grouped) (labels : list string) (d : nat)
  (value : rng -> nat -> string -> nat -> nat -> R) : Prop :=
  forall key m l, In l labels -> mcmc key m l = Some (Grouped m d (value key m l)).
(** the rows of one chain: one row per draw, one column per label *)
Definition chain_rows (labels : list string) (d : nat) (v : string -> nat -> nat -> R) (c : nat) : list (list R) :=
  map (fun t => map (fun l => v l c t) labels) (seq 0 d).
(** the chains of a sequence of calls of the sampler, in order *)
Definition chains_of_calls (labels : list string) (d : nat) (value : rng -> nat -> string -> nat -> nat -> R)
  (calls : list (rng * nat)) : list (list (list R)) :=
  flat_map (fun km => map (chain_rows labels d (value (fst km) (snd km))) (seq 0 (snd km))) calls.
