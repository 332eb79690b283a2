(** Specification vocabulary for bucketing, independent of jenks.py. *)
From Coq Require Import List Bool Arith Sorting.Sorted.
From Verif Require Import Model_Jenks.
Import ListNotations.

(** what a reader of the padded data sees: the entries whose mask is true *)
Definition unpad {A} (mask : list bool) (row : list A) : list A :=
  map snd (filter fst (combine mask row)).

(** read all the buckets of one sequence in order, dropping the padding *)
Definition unpad_buckets {A} (masks : list (list (list bool))) (data : list (list (list A)))
  : list (list A) :=
  flat_map (fun p => map (fun q => unpad (fst q) (snd q)) (combine (fst p) (snd p)))
           (combine masks data).

(** every row of a bucket has the same length: the bucket is a rectangular array *)
Definition rectangular {A} (bucket : list (list A)) : Prop :=
  exists w, Forall (fun row => length row = w) bucket.

(** two bucket lists have the same shape *)
Definition same_shape {A B} (a : list (list (list A))) (b : list (list (list B))) : Prop :=
  Forall2 (Forall2 (fun r s => length r = length s)) a b.

(** assumption on the external library: break values come in non-decreasing order *)
Definition breaks_sorted (jb : list nat -> nat -> option (list nat)) : Prop :=
  forall data n br, jb data n = Some br -> Sorted le br.

(** the parallel sequences agree on the number of rows of every event *)
Definition aligned {A} (arrays : list (aseq A)) : Prop :=
  forall s t, In s arrays -> In t arrays ->
    map (@length A) (items s) = map (@length A) (items t).

(** order of events: by total size, ties by original position *)
Definition size_order {A} (arrays : list (aseq A)) (i j : nat) : Prop :=
  event_size arrays i < event_size arrays j
  \/ (event_size arrays i = event_size arrays j /\ i < j).

