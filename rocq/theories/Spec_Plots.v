(** Vocabulary of the statements about saved samples and the plots made from
    them. *)
From Coq Require Import String Ascii List Arith Bool.
Import ListNotations.
Open Scope nat_scope.

(** A name or number that is one field of a line: not empty, without blanks
    and without [#]. *)
Definition clean (s : string) : Prop :=
  s <> ""%string /\
  forall a, In a (list_ascii_of_string s) -> a <> " "%char /\ a <> "#"%char.

(** Numbers are written as such fields and read back unchanged. *)
Definition numeral_format {num} (fmt : num -> string) (parse : string -> option num) : Prop :=
  forall x, parse (fmt x) = Some x /\ clean (fmt x).

(** A table of samples: distinct names of columns, and in each row one number
    for each name. *)
Definition table {num} (labels : list string) (rows : list (list num)) : Prop :=
  labels <> [] /\ NoDup labels /\ Forall clean labels /\
  Forall (fun r => length r = length labels) rows.

(** The values of a table in column [k]. *)
Definition values {num} (k : nat) (rows : list (list num)) : list (option num) :=
  map (fun r => nth_error r k) rows.

(** [out] holds in position [k] the entry of [row] whose name (in [from]) is
    the [k]-th of [to]. *)
Definition arranged {A} (from to : list string) (row out : list A) : Prop :=
  length out = length to /\
  forall k j name, nth_error to k = Some name -> nth_error from j = Some name ->
    nth_error out k = nth_error row j.

(** The two orders of the same names differ by exchanges of pairs. *)
Definition exchanged_in_pairs (from to : list string) : Prop :=
  forall k j name, nth_error to k = Some name -> nth_error from j = Some name ->
    nth_error from k = nth_error to j.

(** The points that carry label [u], in order. *)
Fixpoint having {A} (u : nat) (labels : list nat) (points : list A) : list A :=
  match labels, points with
  | l :: ls, p :: ps => if Nat.eq_dec l u then p :: having u ls ps else having u ls ps
  | _, _ => []
  end.
