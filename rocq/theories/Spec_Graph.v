From Coq Require Import String List Relations.
From Verif Require Import Model_Graph.
Import ListNotations.

(** the graph as a relation: v is in the set stored under u *)
Definition edge (g : graph) (u v : string) : Prop := exists ns, In (u, ns) g /\ In v ns.
(** a name that occurs in the graph, as a key or in a set *)
Definition node (g : graph) (x : string) : Prop :=
  In x (map fst g) \/ exists u, edge g u x.
Definition cyclic (g : graph) : Prop := exists u, clos_trans _ (edge g) u u.
(** u is listed before v *)
Definition before (l : list string) (u v : string) : Prop :=
  exists a b c, l = a ++ u :: b ++ v :: c.
