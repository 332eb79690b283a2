(** Vocabulary for C117: symmetric positive definite matrices, given by their n x n entries. *)
From Coq Require Import Reals List Arith.
From Verif Require Import Model_X Spec_Invariance.
Import ListNotations.
Open Scope R_scope.

Definition symmetric (n : nat) (M : nat -> nat -> R) : Prop := forall i j, (i < n)%nat -> (j < n)%nat -> M i j = M j i.
(** x^T M x *)
Definition form (n : nat) (M : nat -> nat -> R) (x : nat -> R) : R := total n (fun i => total n (fun j => x i * M i j * x j)).
Definition positive_definite (n : nat) (M : nat -> nat -> R) : Prop :=
  forall x, (exists i, (i < n)%nat /\ x i <> 0) -> 0 < form n M x.
(** jnp.linalg.eigvalsh: it works on the symmetric part of the matrix, and all eigenvalues of a symmetric matrix are
    finite, and positive exactly if the matrix is positive definite *)
Definition eigenvalues_of_symmetric_part (eigvalsh : nat -> (nat -> nat -> X) -> list X) : Prop :=
  forall n (A : nat -> nat -> X) (M : nat -> nat -> R),
    (forall i j, (i < n)%nat -> (j < n)%nat -> A i j = Fin (M i j)) ->
    (forall x, In x (eigvalsh n A) -> exists r, x = Fin r)
    /\ ((forall r, In (Fin r) (eigvalsh n A) -> 0 < r) <-> positive_definite n (fun i j => (M i j + M j i) / 2)).

(** ** the settings file *)
From Coq Require Import String ZArith.
From Verif Require Import Model_Settings.
Open Scope string_scope.
(** keys without a default *)
Definition required : list string :=
  ["batch_size"; "chain_batch_size"; "global_thinning"; "learning_rate"; "local_thinning"; "step_size"; "n_chains";
   "n_epochs"; "n_global_steps"; "n_local_steps"; "n_max_examples"; "n_NFproposal_batch_size"; "n_production_loops";
   "n_training_loops"; "rq_spline_hidden_units"; "rq_spline_n_bins"; "rq_spline_n_layers"; "verbose"].
(** keys whose value is a count *)
Definition counts : list string :=
  ["batch_size"; "global_thinning"; "local_thinning"; "n_leapfrog"; "n_chains"; "n_epochs"; "n_global_steps";
   "n_local_steps"; "n_max_examples"; "history_window"; "n_NFproposal_batch_size"; "n_production_loops";
   "n_training_loops"; "rq_spline_n_bins"; "rq_spline_n_layers"].
(** a positive integer; Python counts true as 1 *)
Definition positive_integer (v : json) : Prop := v = JBool true \/ exists z, v = JInt z /\ (1 <= z)%Z.
Definition an_integer (v : json) : Prop := (exists b, v = JBool b) \/ exists z, v = JInt z.
Definition a_number (v : json) : Prop := an_integer v \/ exists x, v = JFloat x.
(** name, up to blanks around it and the case of its letters *)
Definition white (c : Ascii.ascii) : Prop := In (Ascii.nat_of_ascii c) [9; 10; 11; 12; 13; 28; 29; 30; 31; 32]%nat.
Definition same_letter (c d : Ascii.ascii) : Prop :=
  c = d \/ In (c, d) (combine (list_ascii_of_string "ABCDEFGHIJKLMNOPQRSTUVWXYZ") (list_ascii_of_string "abcdefghijklmnopqrstuvwxyz")).
Definition names_sampler (s name : string) : Prop :=
  exists before word after, list_ascii_of_string s = (before ++ word ++ after)%list /\ Forall white before /\ Forall white after /\
    Forall2 same_letter word (list_ascii_of_string name).
(** the well-formed settings, apart from the mass matrix *)
Definition well_formed (cfg : settings) : Prop :=
  (forall k, In k required -> cfg k <> None)
  /\ (forall k v, In k counts -> cfg k = Some v -> positive_integer v)
  /\ (forall v, cfg "chain_batch_size" = Some v -> an_integer v)
  /\ (forall v, cfg "learning_rate" = Some v -> a_number v)
  /\ (forall v, cfg "step_size" = Some v -> a_number v)
  /\ (forall v, cfg "verbose" = Some v -> exists b, v = JBool b)
  /\ (forall v, cfg "rq_spline_hidden_units" = Some v -> exists l, v = JList l /\ List.Forall positive_integer l)
  /\ (forall v, cfg "rq_spline_range" = Some v -> (exists l, v = JList l) \/ (exists s, v = JStr s) \/ exists o, v = JObj o)
  /\ (forall v, cfg "local_sampler_name" = Some v -> exists s, v = JStr s /\ (names_sampler s "mala" \/ names_sampler s "hmc")).
(** a change of one entry *)
Definition update (cfg : settings) (k : string) (v : json) : settings := fun n => if String.eqb n k then Some v else cfg n.
