(** Vocabulary for the statements about a synthetic catalogue on disk: its files. *)
From Coq Require Import Decimal DecimalString.
From Coq Require Import String List Arith.
Import ListNotations.
Open Scope nat_scope.

Definition digits (n : nat) : string := NilEmpty.string_of_uint (Nat.to_uint n).
Inductive file := Injections | Colours | RawInjections | RawColours | MeansCovs | Posterior (event : nat).
Definition file_name (f : file) : string :=
  match f with
  | Injections => "injections.dat"
  | Colours => "color.dat"
  | RawInjections => "raw_injections.dat"
  | RawColours => "raw_color.dat"
  | MeansCovs => "means_covs.hdf5"
  | Posterior i => "posteriors/event_" ++ digits i ++ ".dat"
  end.
(** file [f] of realization [r] *)
Definition path (r : nat) (f : file) : string := ("data/realization_" ++ digits r ++ "/" ++ file_name f)%string.
(** the name of the group of an event in the file of means and covariances *)
Definition event_name (i : nat) : string := ("event_" ++ digits i)%string.
