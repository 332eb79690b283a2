(** Model of gwkokab/models/constraints.py. *)
From Coq Require Import Reals List Bool Arith.
From Verif Require Import Model_X Model_Joint.
Import ListNotations.
Open Scope R_scope.

(** _MassSandwichConstraint.__call__ and feasible_like, constraints.py:58-66.  The model takes the
    last axis apart; leading axes are not modelled. *)
Definition mass_sandwich (mmin mmax m1 m2 : X) : bool :=
  xltb (Fin 0) mmin && xleb mmin m2 && xleb m2 m1 && xleb m1 mmax.
Definition mass_sandwich_feasible (mmin mmax : X) : X * X :=
  let v := xmul (xadd mmin mmax) (Fin (1/2)) in (v, v).

(** _MassRatioMassSandwichConstraint, constraints.py:105-123 *)
Definition mass_ratio_mass_sandwich (mmin mmax m1 q : X) : bool :=
  let m2 := xmul m1 q in
  xltb (Fin 0) mmin && xleb mmin m2 && xleb m2 m1 && xleb m1 mmax.
(** jnp.clip(x, 0, 1) *)
Definition xclip01 (x : X) : X :=
  match x with
  | NaN => NaN
  | _ => if xltb x (Fin 0) then Fin 0 else if xltb (Fin 1) x then Fin 1 else x
  end.
Definition mass_ratio_feasible (mmin mmax : X) : X * X :=
  let m1 := xmul (xadd mmin mmax) (Fin (1/2)) in (m1, xclip01 (xdiv mmin m1)).

(** jnp.all(cmp(x[1:], x[:-1])), used by the vector constraints, constraints.py:136-253 *)
Definition adjacent (cmp : X -> X -> bool) (x : list X) : bool :=
  forallb (fun p => cmp (fst p) (snd p)) (combine (tl x) (firstn (length x - 1) x)).
Definition xgeb (a b : X) := xleb b a.
Definition xgtb (a b : X) := xltb b a.
Definition increasing_vector := adjacent xgeb.
Definition decreasing_vector := adjacent xleb.
Definition strictly_increasing_vector := adjacent xgtb.
Definition strictly_decreasing_vector := adjacent xltb.
(** independent(positive, 1) *)
Definition positive_vector (x : list X) : bool := forallb (fun a => xltb (Fin 0) a) x.
Definition positive_increasing_vector x := increasing_vector x && positive_vector x.
Definition positive_decreasing_vector x := decreasing_vector x && positive_vector x.
(** feasible_like for a prototype of [n] entries *)
Definition ones (n : nat) : list X := repeat (Fin 1) n.
Definition arange_up (n : nat) : list X := map (fun i => Fin (INR i)) (seq 1 n).
Definition arange_down (n : nat) : list X := map (fun i => Fin (INR (n - i))) (seq 0 n).

(** Composite constraints.  [B]: constraints from elsewhere with their own check and equality;
    [T]: transforms, with their equality, codomain check and inverse. *)
Section Composite.
Variables B T : Type.
Variable basic_check : B -> list X -> bool.
Variable basic_feasible : B -> list X -> list X.
Variable basic_eq : B -> B -> bool.
Variable codomain_check : T -> list X -> bool.
Variable t_inv t_fwd : T -> list X -> list X.
Variable t_eq : T -> T -> bool.

Inductive con :=
| Basic (b : B)
| All (cs : list con) (slices : list slice)
| Any (cs : list con)
| Transformed (base : con) (ts : list T).

(** __call__ of _AllConstraint (constraints.py:273-291), _AnyConstraint (341-345) and
    _TransformedConstraint (374-381).  An _AllConstraint or _AnyConstraint without parts is
    outside the model (the code returns None, or raises). *)
Fixpoint check (c : con) (x : list X) : bool :=
  match c with
  | Basic b => basic_check b x
  | All cs slices =>
    fold_left (fun acc (p : (list X -> bool) * slice) => acc && fst p (take_slice x (snd p)))
              (combine (map (fun c' => check c') cs) slices) true
  | Any cs => fold_left (fun acc (f : list X -> bool) => acc || f x) (map (fun c' => check c') cs) false
  | Transformed base ts =>
    let '(mask, y) :=
        fold_left (fun (s : bool * list X) t => (fst s && codomain_check t (snd s), t_inv t (snd s)))
                  (rev ts) (true, x) in
    mask && check base y
  end.

(** feasible_like of the composites, constraints.py:293-318, 347-348, 383-387 *)
Fixpoint feasible (c : con) (x : list X) : list X :=
  match c with
  | Basic b => basic_feasible b x
  | All cs slices =>
    List.concat (map (fun p : (list X -> list X) * slice => fst p (take_slice x (snd p)))
                     (combine (map (fun c' => feasible c') cs) slices))
  | Any cs => hd (fun x => x) (map (fun c' => feasible c') cs) x
  | Transformed base ts => fold_left (fun fl t => t_fwd t fl) ts (feasible base x)
  end.

(** eq, constraints.py:326-332, 353-359, 395-403: zip stops at the shorter list, and the slices
    are not compared *)
Fixpoint con_eq (c1 c2 : con) : bool :=
  let fix zip_eq (l1 l2 : list con) : bool :=
      match l1, l2 with a :: l1', b :: l2' => con_eq a b && zip_eq l1' l2' | _, _ => true end in
  match c1, c2 with
  | Basic a, Basic b => basic_eq a b
  | All cs1 _, All cs2 _ => zip_eq cs1 cs2
  | Any cs1, Any cs2 => zip_eq cs1 cs2
  | Transformed b1 t1, Transformed b2 t2 =>
    if Nat.eqb (length t1) (length t2)
    then con_eq b1 b2 && forallb (fun p => t_eq (fst p) (snd p)) (combine t1 t2)
    else false
  | _, _ => false
  end.
End Composite.
Arguments Basic {B T}.
Arguments All {B T}.
Arguments Any {B T}.
Arguments Transformed {B T}.
Arguments check {B T}.
Arguments feasible {B T}.
Arguments con_eq {B T}.
