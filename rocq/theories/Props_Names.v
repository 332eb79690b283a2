(** C143: the names of the parameters. *)
From Coq Require Import String List Bool Arith.
From Verif Require Import Model_Names Spec_Names Proofs_Names.
Import ListNotations.
Open Scope string_scope.

(** ** C143 *)

(** Texts and members are equal exactly when they stand for the same text, in both orders. *)
Theorem C143_equal : forall a b,
  (py_eq a b = true <-> text a = text b) /\ py_eq a b = py_eq b a.
Proof.
  intros a b. rewrite !eq_text. split; [apply String.eqb_eq|apply String.eqb_sym].
Qed.
Print Assumptions C143_equal.

(** Equal keys have equal hashes, whatever the hash of texts is. *)
Theorem C143_hash : forall hash a b, py_eq a b = true -> py_hash hash a = py_hash hash b.
Proof. intros hash a b H. apply C143_equal in H. rewrite !hash_text, H. reflexivity. Qed.
Print Assumptions C143_hash.

(** A dictionary filled by assignments with keys of both kinds gives, for a key of either kind, the
    value last assigned under the same text. *)
Theorem C143_dictionary : forall V hash (l : list (key * V)),
  stands_for hash (fold_left (fun d kv => set hash d (fst kv) (snd kv)) l []) (last_value l).
Proof.
  intros V hash l.
  assert (G : forall l (d : dict V) k,
    get hash (fold_left (fun d kv => set hash d (fst kv) (snd kv)) l d) k =
    match last_value l (text k) with Some v => Some v | None => get hash d k end).
  { clear l. induction l as [|[k0 v] t IH]; intros d k; [reflexivity|].
    simpl. rewrite IH, get_set. destruct (last_value t (text k)); [reflexivity|].
    rewrite (String.eqb_sym (text k) (text k0)). destruct (String.eqb (text k0) (text k)); reflexivity. }
  intros k. rewrite G. simpl. destruct (last_value l (text k)); reflexivity.
Qed.
Print Assumptions C143_dictionary.

(** An assignment under another spelling of a key adds no entry. *)
Theorem C143_no_double : forall V hash (d : dict V) k k' v v', text k = text k' ->
  length (set hash (set hash d k v) k' v') = length (set hash d k v).
Proof.
  intros V hash d k k' v v' E. rewrite (set_length _ hash (set hash d k v)), get_set, E, String.eqb_refl. reflexivity.
Qed.
Print Assumptions C143_no_double.

(** The place in a list and the membership depend on the texts only. *)
Theorem C143_index : forall l l' k k', map text l = map text l' -> text k = text k' ->
  py_index l k = py_index l' k' /\ py_in l k = py_in l' k' /\
  (py_in l k = true <-> In (text k) (map text l)).
Proof.
  intros l l' k k' E Ek. rewrite <- (and_assoc (py_index l k = py_index l' k')). split.
  - revert l' E. induction l as [|x t IH]; intros [|x' t'] E; try discriminate; [split; reflexivity|].
    simpl in E. injection E as E1 E2. destruct (IH _ E2) as [I1 I2].
    simpl. unfold py_in in *. simpl. rewrite !eq_text, E1, Ek, I1, I2. split; reflexivity.
  - unfold py_in. rewrite existsb_exists, in_map_iff. split.
    + intros (x & Hx & H). exists x. apply C143_equal in H. split; assumption.
    + intros (x & H & Hx). exists x. split; [exact Hx|]. now apply C143_equal.
Qed.
Print Assumptions C143_index.

(** No two members have the same value; every member prints as its value and is found by it, and
    nothing else is. *)
Theorem C143_members :
  (forall m n, value m = value n -> m = n) /\
  (forall m, py_str (Par m) = text (Par m)) /\
  (forall s m, by_value s = Some m <-> value m = s).
Proof.
  assert (I : forall m n, value m = value n -> m = n).
  { assert (R : forall m, by_value (value m) = Some m) by (intros m; destruct m; reflexivity).
    intros m n E. pose proof (R m) as A. rewrite E, R in A. congruence. }
  split; [exact I|]. split; [reflexivity|].
  intros s m. split.
  - intros H. apply find_some in H. destruct H as [_ H]. now apply String.eqb_eq.
  - intros <-. destruct m; reflexivity.
Qed.
Print Assumptions C143_members.

(** The names of the masses, spins and the redshift are those of the data files. *)
Example C143_data_files_example :
  map (fun m => text (Par m)) [PRIMARY_MASS_SOURCE; SECONDARY_MASS_SOURCE; PRIMARY_MASS_DETECTED; SECONDARY_MASS_DETECTED;
    PRIMARY_SPIN_MAGNITUDE; SECONDARY_SPIN_MAGNITUDE; COS_TILT_1; COS_TILT_2; EFFECTIVE_SPIN; PRECESSING_SPIN; REDSHIFT] =
  ["mass_1_source"; "mass_2_source"; "mass_1"; "mass_2"; "a_1"; "a_2"; "cos_tilt_1"; "cos_tilt_2"; "chi_eff"; "chi_p"; "redshift"].
Proof. reflexivity. Qed.

(** a dictionary written with a member and read with a text, under a poor hash function *)
Example C143_nonvacuous :
  get String.length (set String.length (set String.length [] (Par REDSHIFT) 1) (Str "mass_1") 2) (Str "redshift") = Some 1 /\
  get String.length (set String.length [] (Str "mass_1") 2) (Par PRIMARY_MASS_DETECTED) = Some 2 /\
  get String.length (set String.length [] (Str "mass_1") 2) (Par SECONDARY_MASS_DETECTED) = None /\
  py_index [Str "a_1"; Par CHI_1] (Str "chi_1") = Some 1 /\ by_value "spin" = None.
Proof. repeat split. Qed.
