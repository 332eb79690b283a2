From Coq Require Import String Reals List Sorting Permutation.
From Verif Require Import Model_X Model_Joint Spec_Joint Model_Graph Spec_Graph Model_Guru.
Import ListNotations.
Open Scope nat_scope.

Definition str_le (a b : string) : Prop := String.leb a b = true.

Section S.
Context {K : Type}.
Implicit Types params : list (string * pvalue K).

(** [n] is sampled, with [m] as its prior: a distribution, or one that waits for arguments *)
Definition sampled params (n : string) (m : @marginal K) : Prop :=
  (exists d, In (n, VDist d) params /\ m = Ready d)
  \/ (exists f args, In (n, VLazy f args) params /\ m = Pending f).
(** [n] is given as a number or as null *)
Definition given_constant params (n : string) (c : option X) : Prop :=
  (In (n, VNone) params /\ c = None) \/ (exists x, In (n, VNum x) params /\ c = Some x).

(** argument of the lazy prior [n] comes from parameter [dep] *)
Definition needs params (n dep : string) : Prop :=
  exists f args k, In (n, VLazy f args) params /\ In (k, dep) args.

Definition independent_of (order : list nat) (n : nat) : list nat :=
  filter (fun i => negb (existsb (Nat.eqb i) order)) (seq 0 n).
End S.
