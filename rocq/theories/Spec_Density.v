(** Vocabulary for densities and derivatives. *)
From Coq Require Import Reals List.
From Coquelicot Require Import Coquelicot.
From Verif Require Import Model_X Spec_X.
Import ListNotations.
Open Scope R_scope.

(** the log density [lp] integrates to [v] over [a, b] *)
Definition integrates_to (lp : R -> X) (a b v : R) : Prop := is_RInt (fun x => wexp (lp x)) a b v.

(** near [a] the values of [F] are finite numbers, with derivative [r] at [a] *)
Definition has_derivative (F : R -> X) (a r : R) : Prop :=
  exists (f : R -> R) eps, 0 < eps /\ (forall x, Rabs (x - a) < eps -> F x = Fin (f x))
    /\ derivable_pt_lim f a r.

(** a density of two variables over the region a < x < b, lo x <= y <= hi x *)
Definition integrates_to_2d (lp : R -> R -> X) (a b : R) (lo hi : R -> R) (v : R) : Prop :=
  exists g : R -> R, (forall x, a < x < b -> is_RInt (fun y => wexp (lp x y)) (lo x) (hi x) (g x))
    /\ is_RInt g a b v.

(** trapezoid sum of [f] over the nodes [xs] *)
Fixpoint trapezoid_sum (f : R -> R) (xs : list R) : R :=
  match xs with
  | a :: ((b :: _) as r) => (f a + f b) / 2 * (b - a) + trapezoid_sum f r
  | _ => 0
  end.
(** [n] equally spaced nodes from [a] to [b], both included *)
Definition nodes (a b : R) (n : nat) : list R :=
  map (fun i => ((INR (n - 1) - INR i) * a + INR i * b) / INR (n - 1)) (seq 0 n).

(** the iterated integral of a function of several variables over a box is [v] *)
Fixpoint iterated_integral (box : list (R * R)) (f : list R -> R) (v : R) : Prop :=
  match box with
  | [] => f [] = v
  | (a, b) :: rest =>
    exists g : R -> R, (forall x, a < x < b -> iterated_integral rest (fun xs => f (x :: xs)) (g x)) /\ is_RInt g a b v
  end.
(** a function of four numbers as a function of a list *)
Definition on4 (f : R -> R -> R -> R -> R) (xs : list R) : R :=
  match xs with [a; b; c; d] => f a b c d | _ => 0 end.
