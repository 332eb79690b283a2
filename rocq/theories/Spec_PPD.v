From Coq Require Import String Reals List.
From Verif Require Import Model_X Spec_X Model_Mass Model_PPD.
Import ListNotations.
Open Scope nat_scope.

(** the i-th of the n equally spaced points from a to b *)
Definition grid_point (d : domain) (i : nat) : R :=
  (fst (fst d) + INR i * ((snd (fst d) - fst (fst d)) / INR (snd d - 1)))%R.
(** point of the grid with the given indices *)
Definition point_at (domains : list domain) (idx : list nat) : list R :=
  map (fun p => grid_point (fst p) (snd p)) (combine domains idx).
(** one index per domain, each within range *)
Definition in_range (domains : list domain) (idx : list nat) : Prop :=
  Forall2 (fun d i => i < snd d) domains idx.

(** trapezoidal rule over one domain: (f 0 + f 1)/2 + ... + (f (n-2) + f (n-1))/2, times the step *)
Definition rule (d : domain) (f : R -> R) : R :=
  rsum (map (fun i => (f (grid_point d i) + f (grid_point d (S i))) / 2
                      * ((snd (fst d) - fst (fst d)) / INR (snd d - 1)))%R (seq 0 (snd d - 1))).
(** iterated over several domains *)
Fixpoint integral (domains : list domain) (f : list R -> R) : R :=
  match domains with
  | [] => f []
  | d :: ds => rule d (fun x => integral ds (fun p => f (x :: p)))
  end.

Definition mean (l : list R) : R := (rsum l / INR (length l))%R.

(** density of the model for one row of posterior samples *)
Definition density_of (density : list (string * R) -> list R -> R) (constants : list (string * R))
           (mapping : list (string * nat)) (row : list R) : list R -> R :=
  density (constants ++ map (fun p => (fst p, nth (snd p) row 0%R)) mapping).

(** the range last given for a name *)
Definition last_range (ranges : list (string * domain)) (name : string) : option domain :=
  option_map snd (find (fun p => String.eqb (fst p) name) (rev ranges)).
