(** What can be seen of an object: the values reached by attributes, list positions and dictionary keys. *)
From Coq Require Import String List ZArith Bool.
From Verif Require Import Model_PyTree.
Import ListNotations.
Open Scope string_scope.

Inductive step := Attr (a : string) | Item (i : nat) | Key (k : string).

(** what a path leads to *)
Inductive seen := SLeaf (x : leaf) | SSeq (n : nat) | SDict (ks : list string) | SObj (c : string).
Definition see (v : val) : seen :=
  match v with Leaf x => SLeaf x | Seq l => SSeq (length l) | Dict d => SDict (map fst d) | Obj c _ => SObj c end.
Definition see_map (f : leaf -> leaf) (s : seen) : seen := match s with SLeaf x => SLeaf (f x) | _ => s end.

Section Look.
Context (own : string -> string -> option val).
Fixpoint read (p : list step) (v : val) : option val :=
  match p, v with
  | [], _ => Some v
  | Attr a :: p', Obj n attrs =>
      match assoc a attrs with
      | Some w => read p' w
      | None => match class_attr own n a with Some w => read p' w | None => None end
      end
  | Item i :: p', Seq l => match nth_error l i with Some w => read p' w | None => None end
  | Key k :: p', Dict d => match assoc k d with Some w => read p' w | None => None end
  | _, _ => None
  end.
Definition look (p : list step) (v : val) : option seen := option_map see (read p v).
End Look.

(** the path goes through static data: a static field of an instance, or an attribute of its class *)
Fixpoint static_path (p : list step) (v : val) : bool :=
  match p, v with
  | Attr a :: p', Obj n attrs =>
      match assoc a attrs with
      | None => true
      | Some w =>
          match class_of n with
          | Some c => if existsb (String.eqb a) (aux c) then true else static_path p' w
          | None => false
          end
      end
  | Item i :: p', Seq l => match nth_error l i with Some w => static_path p' w | None => false end
  | Key k :: p', Dict d => match assoc k d with Some w => static_path p' w | None => false end
  | _, _ => false
  end.

(** every object in v is an instance of one of the classes, with the attributes its constructor stores *)
Fixpoint built (v : val) : Prop :=
  match v with
  | Leaf _ => True
  | Seq l => fold_right (fun x acc => built x /\ acc) True l
  | Dict d => fold_right (fun x acc => built (snd x) /\ acc) True d
  | Obj n attrs =>
      (exists c, class_of n = Some c /\ map fst attrs = init c)
      /\ fold_right (fun x acc => built (snd x) /\ acc) True attrs
  end.

(** no BlockTransform anywhere in v *)
Fixpoint no_block (v : val) : Prop :=
  match v with
  | Leaf _ => True
  | Seq l => fold_right (fun x acc => no_block x /\ acc) True l
  | Dict d => fold_right (fun x acc => no_block (snd x) /\ acc) True d
  | Obj n attrs => n <> "BlockTransform" /\ fold_right (fun x acc => no_block (snd x) /\ acc) True attrs
  end.

(** the path does not ask for a domain or a codomain *)
Definition avoids_domain (p : list step) : Prop := ~ In (Attr "domain") p /\ ~ In (Attr "codomain") p.

(** the attributes that jax must not touch, by class; the two shapes in every distribution *)
Definition static_attribute (n a : string) : bool :=
  existsb (fun na => String.eqb (fst na) n && String.eqb (snd na) a)
    [("_AllConstraint", "event_slices"); ("BlockTransform", "event_slices"); ("BlockTransform", "domain");
     ("BlockTransform", "codomain"); ("JointDistribution", "shaped_values"); ("LazyJointDistribution", "shaped_values");
     ("LazyJointDistribution", "partial_order"); ("LazyJointDistribution", "dependencies");
     ("ScaledMixture", "_mixture_size"); ("DoublyTruncatedPowerLaw", "_support")]
  || String.eqb a "_batch_shape" || String.eqb a "_event_shape".
