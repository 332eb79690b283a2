From Coq Require Import Reals List.
From Verif Require Import Model_X Model_Joint Model_Transform.
Import ListNotations.
Open Scope R_scope.

Definition fins (p : list R) : list X := map Fin p.

(** the forward map gives a finite point and the inverse takes it back *)
Definition returns_from (t : transform) (p : list R) : Prop :=
  exists q, t_call t (fins p) = fins q /\ t_inverse t (fins q) = fins p.
(** the inverse gives a finite point and the forward map takes it back *)
Definition returns_to (t : transform) (q : list R) : Prop :=
  exists p, t_inverse t (fins q) = fins p /\ t_call t (fins p) = fins q.

(** near (a) the forward map is f, which has a derivative, and the reported value is
    ln |f'(a)| *)
Definition true_jacobian1 (t : transform) (a : R) : Prop :=
  exists (f : R -> R) eps d, 0 < eps
    /\ (forall x, Rabs (x - a) < eps -> t_call t [Fin x] = [Fin (f x)])
    /\ derivable_pt_lim f a d /\ d <> 0
    /\ t_ladj t [Fin a] (t_call t [Fin a]) = Fin (ln (Rabs d)).
(** near (a, b) the forward map is (f, g), with partial derivatives at (a, b), and the reported
    value is the log of the absolute value of their determinant *)
Definition true_jacobian2 (t : transform) (a b : R) : Prop :=
  exists (f g : R -> R -> R) eps fx fy gx gy, 0 < eps
    /\ (forall x y, Rabs (x - a) < eps -> Rabs (y - b) < eps ->
          t_call t [Fin x; Fin y] = [Fin (f x y); Fin (g x y)])
    /\ derivable_pt_lim (fun x => f x b) a fx /\ derivable_pt_lim (fun y => f a y) b fy
    /\ derivable_pt_lim (fun x => g x b) a gx /\ derivable_pt_lim (fun y => g a y) b gy
    /\ fx * gy - fy * gx <> 0
    /\ t_ladj t [Fin a; Fin b] (t_call t [Fin a; Fin b]) = Fin (ln (Rabs (fx * gy - fy * gx))).
Definition det3 (a b c d e f g h i : R) : R :=
  a * (e * i - f * h) - b * (d * i - f * g) + c * (d * h - e * g).
Definition true_jacobian3 (t : transform) (a b c : R) : Prop :=
  exists (f g h : R -> R -> R -> R) eps fx fy fz gx gy gz hx hy hz, 0 < eps
    /\ (forall x y z, Rabs (x - a) < eps -> Rabs (y - b) < eps -> Rabs (z - c) < eps ->
          t_call t [Fin x; Fin y; Fin z] = [Fin (f x y z); Fin (g x y z); Fin (h x y z)])
    /\ derivable_pt_lim (fun x => f x b c) a fx /\ derivable_pt_lim (fun y => f a y c) b fy
    /\ derivable_pt_lim (fun z => f a b z) c fz
    /\ derivable_pt_lim (fun x => g x b c) a gx /\ derivable_pt_lim (fun y => g a y c) b gy
    /\ derivable_pt_lim (fun z => g a b z) c gz
    /\ derivable_pt_lim (fun x => h x b c) a hx /\ derivable_pt_lim (fun y => h a y c) b hy
    /\ derivable_pt_lim (fun z => h a b z) c hz
    /\ det3 fx fy fz gx gy gz hx hy hz <> 0
    /\ t_ladj t [Fin a; Fin b; Fin c] (t_call t [Fin a; Fin b; Fin c])
       = Fin (ln (Rabs (det3 fx fy fz gx gy gz hx hy hz))).

(** every entry is at most the largest float *)
Definition no_overflow (fmax : R) (x : list X) : Prop := Forall (fun a => xleb a (Fin fmax) = true) x.
(** points accepted by the domain with finite entries are accepted, after mapping, by the codomain *)
Definition lands_in_codomain (fmax : R) (t : transform) : Prop :=
  forall p, t_domain t (fins p) = true -> no_overflow fmax (t_call t (fins p)) ->
            t_codomain t (t_call t (fins p)) = true.

(** [slices] cut the concatenation of [xs] into its pieces in order, starting at coordinate [k];
    a piece of one entry may be given by its index *)
Inductive consecutive : nat -> list (list X) -> list slice -> Prop :=
| consecutive_nil k : consecutive k [] []
| consecutive_range k x xs ss :
    consecutive (k + length x) xs ss -> consecutive k (x :: xs) (Range k (k + length x) :: ss)
| consecutive_at k a xs ss : consecutive (k + 1) xs ss -> consecutive k ([a] :: xs) (At k :: ss).
