(** Vocabulary for C118-C120. *)
From Coq Require Import Reals List Arith Bool ZArith Permutation Sorting.Sorted.
From Verif Require Import Model_X Spec_X Spec_Invariance Model_FlowMC Model_Key Spec_FlowMC.
Import ListNotations.
Open Scope R_scope.

(** ** C118 *)
Definition average (l : list R) : R := rsum l / INR (length l).
(** the unbiased estimate of the variance *)
Definition sample_variance (l : list R) : R :=
  rsum (map (fun x => (x - average l)²) l) / INR (length l - 1).
(** a table with the given number of columns *)
Definition table (n : nat) (rows : list (list R)) : Prop := List.Forall (fun r => length r = n) rows.
(** the j-th column *)
Definition col (j : nat) (rows : list (list R)) : list R := map (fun r => nth j r 0) rows.
(** the diagonal matrix with diagonal d *)
Definition diagonal (d : nat -> R) : nat -> nat -> R := fun i j => if (i =? j)%nat then d i else 0.
Definition identity : nat -> nat -> R := diagonal (fun _ => 1).
(** the sampler for a target logpdf with gradient of its negative, in n dimensions: the velocity is
    Minv p, the kinetic energy is p Minv p / 2 and the momentum is L z for standard normal z *)
Definition sampler (n : nat) (Minv L : nat -> nat -> R) (gradient : vec -> vec) (step_size : R) (n_leapfrog : nat)
           (logpdf : vec -> X) (normals : rng -> vec) (uniform : rng -> R) : list rng -> vec -> X -> vec * X :=
  hmc_steps (matvec n Minv) gradient step_size n_leapfrog logpdf (fun p => Fin (quadratic n Minv p))
            (fun key => matvec n L (normals key)) uniform.

(** ** C119 *)
(** v is the q-quantile of the values: sorted, they are interpolated linearly at position q (n - 1) *)
Definition is_quantile (q : R) (values : list R) (v : R) : Prop :=
  exists sorted k g, Permutation values sorted /\ StronglySorted Rle sorted
    /\ (k < length values)%nat /\ 0 <= g < 1 /\ INR k + g = q * (INR (length values) - 1)
    /\ (g = 0 \/ (S k < length values)%nat)
    /\ v = (1 - g) * nth k sorted 0 + g * nth (S k) sorted 0.
(** how many values are at most, at least, between *)
Definition at_most (v : R) (l : list R) : nat := length (filter (fun x => if Rle_dec x v then true else false) l).
Definition at_least (v : R) (l : list R) : nat := length (filter (fun x => if Rle_dec v x then true else false) l).
Definition between (a b : R) (l : list R) : nat :=
  length (filter (fun x => (if Rle_dec a x then true else false) && (if Rle_dec x b then true else false)) l).
