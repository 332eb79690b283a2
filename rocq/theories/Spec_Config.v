From Coq Require Import Decimal DecimalString DecimalNat.
From Coq Require Import String Reals List Bool Arith.
From Verif Require Import Model_X Model_Joint Model_Guru Model_Config.
Import ListNotations.
Open Scope nat_scope.

(** f"{name}_{i}" *)
Definition numbered (name : string) (i : nat) : string :=
  (name ++ "_" ++ NilEmpty.string_of_uint (Nat.to_uint i))%string.

(** the columns of a row, numbered from [k], that are not in [w] *)
Fixpoint kept {A} (k : nat) (w : list nat) (row : list A) : list A :=
  match row with
  | [] => []
  | x :: t => if existsb (Nat.eqb k) w then kept (S k) w t else x :: kept (S k) w t
  end.
(** columns that belong to rates *)
Definition rate_columns (mapping : list (string * nat)) : list nat :=
  map snd (filter (fun p => starts_with "log_rate" (fst p)) mapping).
