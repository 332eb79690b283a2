(** Vocabulary of the rounding of distances. *)
From Coq Require Import Reals List ZArith.
From Flocq Require Import Core.
From Coquelicot Require Import Coquelicot.
From Verif Require Import Spec_Rounding.
Import ListNotations.
Open Scope R_scope.

(** The Friedmann equation: (H / Ho)^2 at redshift z *)
Definition hubble_squared (Om Or Ol Ok z : R) : R := Ol + Ok * (1 + z) ^ 2 + Om * (1 + z) ^ 3 + Or * (1 + z) ^ 4.
(** Distance per redshift, and comoving and luminosity distance *)
Definition per_redshift (ratio Om Or Ol Ok z : R) : R := ratio / sqrt (hubble_squared Om Or Ol Ok z).
Definition comoving (ratio Om Or Ol Ok z : R) : R := RInt (per_redshift ratio Om Or Ol Ok) 0 z.
Definition luminosity (ratio Om Or Ol Ok z : R) : R := (1 + z) * comoving ratio Om Or Ol Ok z.

(** The smallest normal number *)
Definition smallest_normal (emin prec : Z) : R := bpow radix2 (emin + prec - 1).
(** Zero, or a positive number that is not subnormal *)
Definition coefficient (emin prec : Z) (x : R) : Prop :=
  is_float emin prec x /\ (x = 0 \/ smallest_normal emin prec <= x).

(** Redshifts from zero upwards in steps between [lo] and [hi] *)
Fixpoint apart (lo hi : R) (zs : list R) : Prop :=
  match zs with
  | x0 :: ((x1 :: _) as r) => lo <= x1 - x0 <= hi /\ apart lo hi r
  | _ => True
  end.
Definition redshifts (emin prec : Z) (lo hi : R) (zs : list R) : Prop :=
  (2 <= length zs)%nat /\ hd 0 zs = 0 /\ apart lo hi zs /\ List.Forall (is_float emin prec) zs.

(** Relative error of [k] roundings one after the other *)
Definition roundings (u : R) (k : nat) : R := of_relative (INR k * u).

(** Error of an interpolated entry of a table with relative error [e] and entries at most [M] *)
Definition interp_error (u tiny e M : R) : R := (e + 10 * u) * M + tiny * (1 + M).

(** Densities that the format holds exactly, none of them negative *)
Definition densities (emin prec : Z) (Om Or Ol Ok : R) : Prop :=
  coefficient emin prec Om /\ coefficient emin prec Or /\ coefficient emin prec Ol /\
  coefficient emin prec Ok /\ 0 < Om + Or + Ol + Ok.
(** Steps that are neither so short that interpolation ignores them nor so short that an area underflows *)
Definition resolved (emin prec : Z) (lo last_value : R) : Prop :=
  2 * bpow radix2 (2 - 2 * prec) <= lo <= 1 /\ 4 * smallest_normal emin prec <= lo * last_value.
