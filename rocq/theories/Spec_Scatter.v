(** Vocabulary of the statements about the scatter scripts. *)
From Coq Require Import String List.
From Verif Require Import Model_Plots Spec_Plots Model_Scatter.
Import ListNotations.
Open Scope string_scope.

(** the file is a table in the format of a synthetic catalogue: a line of names, then the rows *)
Definition holds_table {num} (fmt : num -> string) (c : content num) (labels : list string) (rows : list (list num)) : Prop :=
  table labels rows /\ c = Text (savetxt fmt "" labels rows).
(** the entry of a row under a name *)
Definition cell {num} (labels : list string) (name : string) (row : list num) (v : option num) : Prop :=
  exists k, nth_error labels k = Some name /\ v = nth_error row k.
(** one point per row: its three coordinates, and its colour is the third of them *)
Definition shows {num} (labels : list string) (rows : list (list num)) (x y z : string) (g : group num) : Prop :=
  Forall2 (fun row p => cell labels x row (fst (fst p)) /\ cell labels y row (snd (fst p)) /\ cell labels z row (snd p))
          rows (points g) /\
  Forall2 (fun row c => cell labels z row c) rows (colours g).
(** apart from [path] the files are the same *)
Definition same_elsewhere {num} (path : string) (d d' : disk num) : Prop := forall p, p <> path -> d' p = d p.
