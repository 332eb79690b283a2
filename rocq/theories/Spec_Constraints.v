From Coq Require Import Reals List Bool.
From Verif Require Import Model_X Model_Joint Model_Constraints.
Import ListNotations.
Open Scope R_scope.

(** every pair of entries, the earlier first, is related *)
Definition pairwise (rel : X -> X -> bool) (x : list X) : Prop :=
  forall i j, (i < j < length x)%nat -> rel (nth i x NaN) (nth j x NaN) = true.

(** two composite constraints have the same layout: same numbers of parts, same slices *)
Inductive same_layout {B T} : con B T -> con B T -> Prop :=
| SL_basic a b : same_layout (Basic a) (Basic b)
| SL_all cs1 cs2 sl : Forall2 same_layout cs1 cs2 -> same_layout (All cs1 sl) (All cs2 sl)
| SL_any cs1 cs2 : Forall2 same_layout cs1 cs2 -> same_layout (Any cs1) (Any cs2)
| SL_tr b1 b2 t1 t2 : same_layout b1 b2 -> same_layout (Transformed b1 t1) (Transformed b2 t2).

(** slices laid out one after the other from coordinate [k]: [None] takes one coordinate as a
    scalar, [Some n] takes a block of n *)
Fixpoint laid_out (k : nat) (shapes : list (option nat)) : list slice :=
  match shapes with
  | [] => []
  | None :: t => At k :: laid_out (k + 1) t
  | Some n :: t => Range k (k + n) :: laid_out (k + n) t
  end.
Definition width (s : option nat) : nat := match s with None => 1 | Some n => n end.

Section Sized.
Context {B T : Type}.
Variable bsize : B -> nat.
Variable domain_check : T -> list X -> bool.
Variable t_fwd : T -> list X -> list X.
Variable chk : con B T -> list X -> bool.
(** every transform is applied inside its domain when starting from [y] *)
Fixpoint in_domains (ts : list T) (y : list X) : Prop :=
  match ts with [] => True | t :: ts' => domain_check t y = true /\ in_domains ts' (t_fwd t y) end.

(** [c] constrains vectors of [n] coordinates: slices of a conjunction cut them in order, an
    alternative has at least one part, and transforms are applicable to what the base accepts *)
Inductive constrains : con B T -> nat -> Prop :=
| CS_basic b : constrains (Basic b) (bsize b)
| CS_all cs shapes :
    Forall2 (fun c s => constrains c (width s)) cs shapes ->
    constrains (All cs (laid_out 0 shapes)) (fold_right Nat.add 0%nat (map width shapes))
| CS_any cs n : cs <> [] -> Forall (fun c => constrains c n) cs -> constrains (Any cs) n
| CS_tr b ts n :
    constrains b n ->
    (forall y, length y = n -> chk b y = true -> in_domains ts y) ->
    constrains (Transformed b ts) n.
End Sized.
