(** Vocabulary of the properties on the number of buckets and the amount of padding. *)
From Coq Require Import List Bool Arith QArith Sorting.Sorted.
From Verif Require Import Model_Jenks.
Import ListNotations.
Open Scope nat_scope.

(** how many different numbers a list has *)
Definition distinct (l : list nat) : nat := length (nodup Nat.eq_dec l).

(** the number of rows of every event *)
Definition event_rows {A} (arrays : list (aseq A)) : list nat :=
  match arrays with [] => [] | s :: _ => map (@length A) (items s) end.

(** some sequence has rows with elements in them *)
Definition has_elements {A} (arrays : list (aseq A)) : Prop :=
  exists s, In s arrays /\ 0 < row_size s.

(** entries of the mask arrays, and those of them that are padding *)
Definition cells (masks : list (list (list bool))) : nat :=
  list_sum (map (fun b => list_sum (map (@length bool) b)) masks).
Definition holes (masks : list (list (list bool))) : nat :=
  list_sum (map (fun b => list_sum (map (fun r => length (filter negb r)) b)) masks).

(** the share of the padding in percent *)
Definition padded_share (masks : list (list (list bool))) : Q :=
  if cells masks =? 0 then 0%Q
  else (100 * inject_Z (Z.of_nat (holes masks)) / inject_Z (Z.of_nat (cells masks)))%Q.

(** the rows an event has, read from its mask *)
Definition rows_in (mask : list bool) : nat := length (filter (fun k => k) mask).

(** What jenkspy documents: for sorted data with at least [n] different values it returns the
    minimum and the upper ends of [n] classes, which are different values of the data, the last
    of them the maximum. *)
Definition classes (jb : list nat -> nat -> option (list nat)) : Prop :=
  forall data n, Sorted le data -> 2 <= n <= distinct data ->
    exists b0 bs, jb data n = Some (b0 :: bs) /\ length bs = n /\ StronglySorted lt bs /\
      (forall b, In b bs -> In b data) /\ (forall d, In d data -> d <= last bs 0).
