(** Vocabulary of the property of the parameter names. *)
From Coq Require Import String List.
From Verif Require Import Model_Names.
Import ListNotations.
Open Scope string_scope.

(** the text a key stands for: itself, or what parameters.py assigns to the member *)
Definition text (k : key) : string := match k with Str s => s | Par m => value m end.

(** a dictionary as a function of texts *)
Definition stands_for {V} (hash : string -> nat) (d : dict V) (f : string -> option V) : Prop :=
  forall k, get hash d k = f (text k).

(** what a sequence of assignments to an empty dictionary leaves under a text: the last value *)
Fixpoint last_value {V} (l : list (key * V)) (s : string) : option V :=
  match l with
  | [] => None
  | (k, v) :: t => match last_value t s with
                   | Some w => Some w
                   | None => if String.eqb (text k) s then Some v else None
                   end
  end.
