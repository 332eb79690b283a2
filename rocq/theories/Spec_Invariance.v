(** Vocabulary for C116: the integral of a non-negative continuous function of finitely many real coordinates.

    The coordinates are named by the elements of a type; [l] lists the coordinates that are integrated over.
    For a continuous function that vanishes outside a box the integral is the iterated one; for a non-negative
    continuous function it is the least upper bound of the integrals of such functions below it, which is how the
    Lebesgue integral is defined from continuous functions. It may be infinite. *)
From Coq Require Import Reals List.
From Coquelicot Require Import Coquelicot.
Import ListNotations.
Open Scope R_scope.

Section Coordinates.
Context {A : Type} (dec : forall a b : A, {a = b} + {a <> b}).
(** coordinate i replaced by t *)
Definition set_coord (z : A -> R) (i : A) (t : R) : A -> R := fun j => if dec j i then t else z j.
(** the integral over coordinate i, from minus infinity to plus infinity *)
Definition over (i : A) (phi : (A -> R) -> R) : (A -> R) -> R :=
  fun z => RInt_gen (fun t => phi (set_coord z i t)) (Rbar_locally m_infty) (Rbar_locally p_infty).
(** the iterated integral over the coordinates of l *)
Definition iterated (l : list A) (phi : (A -> R) -> R) : R := fold_right over phi l (fun _ => 0).

Definition in_box (l : list A) (B : R) (z : A -> R) : Prop := forall i, In i l -> Rabs (z i) <= B.
Definition near (l : list A) (d : R) (z w : A -> R) : Prop := forall i, In i l -> Rabs (z i - w i) < d.
(** continuous functions of the coordinates in l: uniformly continuous on every box *)
Definition continuous_coords (l : list A) (g : (A -> R) -> R) : Prop :=
  forall B eps, 0 < eps -> exists d, 0 < d /\
    forall z w, in_box l B z -> in_box l B w -> near l d z w -> Rabs (g z - g w) < eps.
(** uniformly continuous functions that vanish outside a box *)
Definition box_function (l : list A) (phi : (A -> R) -> R) : Prop :=
  (exists B, forall z, ~ in_box l B z -> phi z = 0)
  /\ (forall eps, 0 < eps -> exists d, 0 < d /\ forall z w, near l d z w -> Rabs (phi z - phi w) < eps).
(** the integral of a non-negative continuous function *)
Definition integral (l : list A) (G : (A -> R) -> R) : Rbar :=
  Lub_Rbar (fun r => exists phi, box_function l phi /\ (forall z, 0 <= phi z <= G z) /\ r = iterated l phi).
End Coordinates.

(** phase space: n positions (inl) and n further coordinates (inr) *)
Definition phase_dec : forall a b : nat + nat, {a = b} + {a <> b}.
Proof. decide equality; apply PeanoNat.Nat.eq_dec. Defined.
Definition phase (n : nat) : list (nat + nat) := map inl (seq 0 n) ++ map inr (seq 0 n).
(** the integral over positions x and coordinates z of G x z *)
Definition integral_xz (n : nat) (G : (nat -> R) -> (nat -> R) -> R) : Rbar :=
  integral phase_dec (phase n) (fun w => G (fun i => w (inl i)) (fun i => w (inr i))).
(** finite sums *)
Definition total (n : nat) (a : nat -> R) : R := fold_right Rplus 0 (map a (seq 0 n)).
(** L is a lower triangular matrix with positive diagonal, M = L L^T, and M Minv = 1 *)
Definition cholesky (n : nat) (M L : nat -> nat -> R) : Prop :=
  (forall i j, (i < j)%nat -> L i j = 0) /\ (forall i, (i < n)%nat -> 0 < L i i)
  /\ (forall i j, (i < n)%nat -> (j < n)%nat -> M i j = total n (fun k => L i k * L j k)).
Definition right_inverse (n : nat) (M Minv : nat -> nat -> R) : Prop :=
  forall i j, (i < n)%nat -> (j < n)%nat -> total n (fun k => M i k * Minv k j) = if Nat.eqb i j then 1 else 0.
(** L z, and the density of n independent standard normal variables *)
Definition matvec (n : nat) (L : nat -> nat -> R) (z : nat -> R) : nat -> R := fun i => total n (fun j => L i j * z j).
Definition normal_density (n : nat) (z : nat -> R) : R := exp (- / 2 * total n (fun i => z i * z i)) / sqrt (2 * PI) ^ n.
