From Coq Require Import String Reals List Bool Permutation.
From Verif Require Import Model_X Spec_X Model_Joint.
Import ListNotations.
Open Scope nat_scope.

(** induction principle for the nested type of distributions *)
Section DistInd.
Context {K : Type} (P : dist K -> Prop).
Hypothesis HL : forall s lp su dr, P (Leaf s lp su dr).
Hypothesis HJ : forall ms s, Forall P ms -> P (Joint ms s).
Fixpoint dist_ind' (d : dist K) : P d :=
  match d with
  | Leaf s lp su dr => HL s lp su dr
  | Joint ms s => HJ ms s ((fix go l : Forall P l :=
      match l with [] => Forall_nil _ | x :: t => Forall_cons _ (dist_ind' x) (go t) end) ms)
  end.
End DistInd.

(** [parts] cuts a point into one piece per marginal, of the marginal's size *)
Definition cut_as {K} (ms : list (dist K)) (parts : list (list X)) : Prop :=
  Forall2 (fun d p => length p = event_size d) ms parts.

(** sum over marginals of log density on the own piece *)
Definition sum_log_probs {K} (ms : list (dist K)) (parts : list (list X)) : X :=
  fold_right xadd (Fin 0%R) (map (fun p => log_prob (fst p) (snd p)) (combine ms parts)).
Definition all_supports {K} (ms : list (dist K)) (parts : list (list X)) : bool :=
  forallb (fun p => in_support (fst p) (snd p)) (combine ms parts).

(** coordinates covered by a slice *)
Definition coords (s : slice) : list nat :=
  match s with At i => [i] | Range a b => seq a (b - a) end.

(** no JointDistribution inside was given an explicit support *)
Fixpoint default_supports {K} (d : dist K) : Prop :=
  match d with
  | Leaf _ _ _ _ => True
  | Joint ms s => s = None /\ fold_right and True (map default_supports ms)
  end.

(** every leaf draws vectors of its own event size *)
Fixpoint draws_sized {K} (d : dist K) : Prop :=
  match d with
  | Leaf s _ _ dr => forall k, length (dr k) = match s with None => 1 | Some n => n end
  | Joint ms _ => fold_right and True (map draws_sized ms)
  end.

(** the conditional distribution of marginal [i] at the point [v] (scalar coordinates) *)
Definition conditional {K} (deps : dependencies) (m : marginal) (i : nat) (v : list X) : dist K :=
  match m with
  | Ready d => d
  | Pending f =>
    f (map (fun p => (fst p, [nth (snd p) v NaN]))
           (match assoc_nat deps i with Some l => l | None => [] end))
  end.
(** ** mixtures *)
Open Scope R_scope.
(** rate-weighted density of one component at a point: zero outside its own support *)
Definition weighted_density (value : list X) (c : component) : R :=
  if c_supp c value then wexp (c_log_scale c) * wexp (c_lp c value) else 0.
(** a log scale and, inside the support, a log density that is finite or -inf; a component that
    validates its arguments returns -inf outside its support (numpyro's validate_sample) *)
Definition good_component (value : list X) (c : component) : Prop :=
  fin_or_ninf (c_log_scale c)
  /\ (c_supp c value = true -> fin_or_ninf (c_lp c value))
  /\ (c_validate c = true -> c_supp c value = false -> c_lp c value = NInf).

(** ** lazy joints *)
Open Scope nat_scope.
(** [parts] cuts a point into one piece per marginal *)
Fixpoint lazy_cut {K} (dep_shape : nat -> option nat) (i : nat) (ms : list (@marginal K))
         (parts : list (list X)) : Prop :=
  match ms, parts with
  | [], [] => True
  | m :: ms', p :: ps =>
    length p = match marginal_shape dep_shape i m with Some n => n | None => 1 end
    /\ lazy_cut dep_shape (S i) ms' ps
  | _, _ => False
  end.

(** marginals that wait for arguments are exactly the ones listed in [deps], once each, and they
    refer to existing coordinates *)
Definition deps_match {K} (ms : list (@marginal K)) (deps : dependencies) (ncoords : nat) : Prop :=
  NoDup (map fst deps)
  /\ (forall i, In i (map fst deps) <-> exists f, nth_error ms i = Some (Pending f))
  /\ (forall i dep k j, In (i, dep) deps -> In (k, j) dep -> j < ncoords).

(** sum over marginals of the conditional log density of their own piece *)
Definition chain_rule {K} (deps : dependencies) (ms : list (@marginal K)) (parts : list (list X)) : X :=
  fold_right xadd (Fin 0%R)
    (map (fun p => log_prob (conditional deps (fst (snd p)) (fst p) (concat parts)) (snd (snd p)))
         (combine (seq 0 (length ms)) (combine ms parts))).

(** conditional distribution given the values drawn for other marginals *)
Definition conditional_on {K} (deps : dependencies) (m : marginal) (i : nat) (drawn : list (list X))
  : dist K :=
  match m with
  | Ready d => d
  | Pending f =>
    f (map (fun p => (fst p, nth (snd p) drawn []))
           (match assoc_nat deps i with Some l => l | None => [] end))
  end.

(** the [n] keys produced by repeatedly splitting *)
Fixpoint subkeys {K} (split : K -> K * K) (n : nat) (key : K) : list K :=
  match n with 0 => [] | S n' => snd (split key) :: subkeys split n' (fst (split key)) end.

(** [order] lists each marginal once; the first ones need nothing, and each later one
    only needs marginals listed before it *)
Definition respects {K} (ms : list (@marginal K)) (deps : dependencies)
           (independent partial_order : list nat) : Prop :=
  Permutation (independent ++ partial_order) (seq 0 (length ms))
  /\ (forall i, In i independent -> exists d, nth_error ms i = Some (Ready d))
  /\ (forall pre i post, partial_order = pre ++ i :: post ->
        exists dep, assoc_nat deps i = Some dep
          /\ forall k j, In (k, j) dep -> In j (independent ++ pre)).
