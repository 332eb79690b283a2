(** Real-number vocabulary used in specifications. *)
From Coq Require Import Reals List.
From Verif Require Import Model_X.
Import ListNotations.
Open Scope R_scope.

(** finite weights: exponential of a log-weight that is finite or -inf *)
Definition wexp (a : X) : R := match a with Fin x => exp x | _ => 0 end.
Definition fin_or_ninf (a : X) : Prop := match a with Fin _ | NInf => True | _ => False end.

Fixpoint rsum (l : list R) : R := match l with [] => 0 | x :: t => x + rsum t end.

(** a value a sampler can use: finite or -inf *)
Definition finite_or_neginf (a : X) : Prop := a = NInf \/ exists r, a = Fin r.
