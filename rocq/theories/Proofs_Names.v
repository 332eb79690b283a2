(** Lemmas about the parameter names. *)
From Coq Require Import String List Bool Arith.
From Verif Require Import Model_Names Spec_Names.
Import ListNotations.
Open Scope string_scope.

Lemma eq_text : forall a b, py_eq a b = String.eqb (text a) (text b).
Proof.
  intros [s|m] [t|n]; simpl; unfold member_eq_str; try reflexivity.
  - apply String.eqb_sym.
  - apply String.eqb_sym.
Qed.

Lemma hash_text : forall hash a, py_hash hash a = hash (text a).
Proof. intros hash [s|m]; reflexivity. Qed.

Lemma match_text : forall hash a b,
  Nat.eqb (py_hash hash a) (py_hash hash b) && py_eq a b = String.eqb (text a) (text b).
Proof.
  intros hash a b. rewrite eq_text, !hash_text.
  destruct (String.eqb (text a) (text b)) eqn:E; [|apply andb_false_r].
  apply String.eqb_eq in E. rewrite E, Nat.eqb_refl. reflexivity.
Qed.

Lemma get_text : forall V hash (d : dict V) k k', text k = text k' -> get hash d k = get hash d k'.
Proof.
  intros V hash d k k' E. induction d as [|[k0 v] t IH]; [reflexivity|].
  simpl. rewrite !match_text, E. destruct (String.eqb (text k0) (text k')); [reflexivity|exact IH].
Qed.

Lemma get_set : forall V hash (d : dict V) k v k',
  get hash (set hash d k v) k' = if String.eqb (text k') (text k) then Some v else get hash d k'.
Proof.
  intros V hash d k v k'. induction d as [|[k0 v0] t IH].
  - simpl. rewrite match_text, String.eqb_sym. reflexivity.
  - simpl. rewrite match_text. destruct (String.eqb (text k0) (text k)) eqn:E; simpl; rewrite !match_text.
    + apply String.eqb_eq in E. rewrite E. rewrite (String.eqb_sym (text k) (text k')).
      destruct (String.eqb (text k') (text k)); reflexivity.
    + destruct (String.eqb (text k0) (text k')) eqn:E2; [|exact IH].
      apply String.eqb_eq in E2. rewrite E2 in E. rewrite E. reflexivity.
Qed.

Lemma set_length : forall V hash (d : dict V) k v,
  length (set hash d k v) = match get hash d k with Some _ => length d | None => S (length d) end.
Proof.
  intros V hash d k v. induction d as [|[k0 v0] t IH]; [reflexivity|].
  simpl. destruct (Nat.eqb (py_hash hash k0) (py_hash hash k) && py_eq k0 k); [reflexivity|].
  simpl. rewrite IH. destruct (get hash t k); reflexivity.
Qed.

Lemma all_members : forall m, In m members.
Proof. intros m; destruct m; simpl; tauto. Qed.
