(** Model of joint distributions, lazy joints and scaled mixtures:
    gwkokab/models/utils/_joindistribution.py, _lazyjointdistribution.py, _scaledmixture.py. *)
From Coq Require Import Reals List Bool String Arith.
From Verif Require Import Model_X Model_Likelihood.
Import ListNotations.
Open Scope nat_scope.

(** entries of [shaped_values]: an index for a scalar marginal, a half-open range otherwise *)
Inductive slice := At (i : nat) | Range (a b : nat).

(** lax.dynamic_index_in_dim and lax.dynamic_slice_in_dim clamp the start index into range.
    A scalar is represented by a list of one element. *)
Definition dyn_index (v : list X) (i : nat) : list X := [nth (Nat.min i (List.length v - 1)) v NaN].
Definition dyn_slice (v : list X) (start size : nat) : list X :=
  firstn size (skipn (Nat.min start (List.length v - size)) v).
Definition take_slice (v : list X) (s : slice) : list X :=
  match s with At i => dyn_index v i | Range a b => dyn_slice v a (b - a) end.

(** Distributions with at most one event dimension.  [Leaf]: any distribution that is not a
    JointDistribution, given by its event shape (None for [()], Some n for [(n,)]), log density,
    support and sampler; [Joint]: a JointDistribution with its marginals and, possibly, the
    support passed explicitly.  Batch dimensions are not modelled. *)
Inductive dist (K : Type) :=
| Leaf (shape : option nat) (lp : list X -> X) (supp : list X -> bool) (draw : K -> list X)
| Joint (marginals : list (dist K)) (support : option (list X -> bool)).
Arguments Leaf {K}.
Arguments Joint {K}.

Section Joint.
Context {K : Type}.

Fixpoint event_size (d : dist K) : nat :=
  match d with
  | Leaf None _ _ _ => 1
  | Leaf (Some n) _ _ _ => n
  | Joint ms _ => fold_right Nat.add 0 (map event_size ms)
  end.
Definition is_scalar (d : dist K) : bool :=
  match d with Leaf None _ _ _ => true | _ => false end.

(** the loop computing [shaped_values], _joindistribution.py:107-114 *)
Fixpoint shaped_values (k : nat) (ms : list (dist K)) : list slice :=
  match ms with
  | [] => []
  | d :: t => if is_scalar d then At k :: shaped_values (k + 1) t
              else Range k (k + event_size d) :: shaped_values (k + event_size d) t
  end.

(** JointDistribution.log_prob, _joindistribution.py:132-148 *)
Fixpoint log_prob (d : dist K) (value : list X) : X :=
  match d with
  | Leaf _ lp _ _ => lp value
  | Joint ms _ =>
    fold_left (fun acc (p : (list X -> X) * slice) => xadd acc (fst p (take_slice value (snd p))))
              (combine (map (fun m => log_prob m) ms) (shaped_values 0 ms)) (Fin 0)
  end.

(** support of a joint: the given one, or all_constraint of the marginals' supports,
    _joindistribution.py:115-130 and _AllConstraint.__call__, constraints.py:273-291 *)
Fixpoint in_support (d : dist K) (value : list X) : bool :=
  match d with
  | Leaf _ _ s _ => s value
  | Joint _ (Some s) => s value
  | Joint ms None =>
    fold_left (fun acc (p : (list X -> bool) * slice) => acc && fst p (take_slice value (snd p)))
              (combine (map (fun m => in_support m) ms) (shaped_values 0 ms)) true
  end.

(** jrd.split(key, n) *)
Variable split_n : K -> nat -> list K.

(** JointDistribution.sample with sample_shape = (), _joindistribution.py:150-158 *)
Fixpoint sample (d : dist K) (key : K) : list X :=
  match d with
  | Leaf _ _ _ draw => draw key
  | Joint ms _ =>
    List.concat (map2 (fun s k => s k) (map (fun m => sample m) ms) (split_n key (List.length ms)))
  end.

(** _flatten_marginal_distributions, _joindistribution.py:161-216 *)
Inductive flatten_method := FNone | Shallow | Deep.
Fixpoint flatten_deep (d : dist K) : list (dist K) :=
  match d with Joint ms _ => flat_map flatten_deep ms | _ => [d] end.
Definition flatten (m : flatten_method) (ms : list (dist K)) : list (dist K) :=
  match m with
  | FNone => ms
  | Shallow => flat_map (fun d => match d with Joint ms' _ => ms' | _ => [d] end) ms
  | Deep => flat_map flatten_deep ms
  end.

(** JointDistribution.__init__, _joindistribution.py:22-125; no marginals is an error *)
Definition joint (ms : list (dist K)) (m : flatten_method) (support : option (list X -> bool))
  : option (dist K) :=
  match ms with [] => None | _ => Some (Joint (flatten m ms) support) end.

(** ** LazyJointDistribution *)

(** a marginal is a distribution, or a Partial waiting for keyword arguments *)
Inductive marginal :=
| Ready (d : dist K)
| Pending (f : list (string * list X) -> dist K).

Definition is_pending (m : marginal) : bool := match m with Pending _ => true | _ => false end.

Definition dependencies := list (nat * list (string * nat)).

(** shaped_values of a lazy joint, _lazyjointdistribution.py:173-194; [dep_shape i] is
    dependencies_event_shape[i] *)
Definition marginal_shape (dep_shape : nat -> option nat) (i : nat) (m : marginal) : option nat :=
  match m with
  | Ready (Leaf s _ _ _) => s
  | Ready (Joint ms s) => Some (event_size (Joint ms s))
  | Pending _ => dep_shape i
  end.
Fixpoint lazy_slices (dep_shape : nat -> option nat) (i k : nat) (ms : list marginal) : list slice :=
  match ms with
  | [] => []
  | m :: t =>
    match marginal_shape dep_shape i m with
    | Some n => Range k (k + n) :: lazy_slices dep_shape (S i) (k + n) t
    | None => At k :: lazy_slices dep_shape (S i) (k + 1) t
    end
  end.

Definition set_nth {A} (l : list A) (i : nat) (a : A) : list A :=
  firstn i l ++ match skipn i l with [] => [] | _ :: t => a :: t end.

(** the loop over [self.dependencies.items()], _lazyjointdistribution.py:221-228: builds the
    conditional distributions.  An index out of range or a marginal that is not a Partial raises. *)
Definition resolve (value : list X) (deps : dependencies) (ms : list marginal)
  : option (list marginal) :=
  fold_left
    (fun acc (d : nat * list (string * nat)) =>
       match acc with
       | None => None
       | Some ms =>
         match nth_error ms (fst d) with
         | Some (Pending f) =>
           Some (set_nth ms (fst d)
                         (Ready (f (map (fun p => (fst p, dyn_index value (snd p))) (snd d)))))
         | _ => None
         end
       end)
    deps (Some ms).

Fixpoint all_ready (ms : list marginal) : option (list (dist K)) :=
  match ms with
  | [] => Some []
  | Ready d :: t => match all_ready t with Some l => Some (d :: l) | None => None end
  | Pending _ :: _ => None
  end.

(** LazyJointDistribution.log_prob, _lazyjointdistribution.py:219-243 *)
Definition lazy_log_prob (dep_shape : nat -> option nat) (ms : list marginal) (deps : dependencies)
           (value : list X) : option X :=
  match resolve value deps ms with
  | None => None
  | Some ms' =>
    match all_ready ms' with
    | None => None
    | Some ds =>
      Some (fold_left (fun acc p => xadd acc (log_prob (fst p) (take_slice value (snd p))))
                      (combine ds (lazy_slices dep_shape 0 0 ms)) (Fin 0))
    end
  end.

(** _LazyConstraint.__call__, _lazyjointdistribution.py:33-60 *)
Definition lazy_support (dep_shape : nat -> option nat) (ms : list marginal) (deps : dependencies)
           (value : list X) : option bool :=
  match resolve value deps ms with
  | None => None
  | Some ms' =>
    match all_ready ms' with
    | None => None
    | Some ds =>
      Some (fold_left (fun acc p => acc && in_support (fst p) (take_slice value (snd p)))
                      (combine ds (lazy_slices dep_shape 0 0 ms)) true)
    end
  end.

Variable split : K -> K * K.

(** LazyJointDistribution.sample with sample_shape = (), _lazyjointdistribution.py:245-268.
    A slot of [samples] that has not been drawn yet (jnp.empty) is [None], and reading it makes
    the whole result [None], so that a successful result never used an uninitialised value.
    [independent] is the set of indices not in [partial_order], in the order in which the set
    is iterated. *)
Fixpoint read_all (samples : list (option (list X))) (dep : list (string * nat))
  : option (list (string * list X)) :=
  match dep with
  | [] => Some []
  | (k, v) :: t =>
    match nth_error samples v, read_all samples t with
    | Some (Some x), Some r => Some ((k, x) :: r)
    | _, _ => None
    end
  end.

Fixpoint assoc_nat {A} (l : list (nat * A)) (i : nat) : option A :=
  match l with
  | [] => None
  | (k, a) :: t => if Nat.eqb k i then Some a else assoc_nat t i
  end.

Definition lazy_state := (K * list (option (list X)))%type.

Definition draw_independent (ms : list marginal) (st : option lazy_state) (i : nat)
  : option lazy_state :=
  match st with
  | None => None
  | Some (key, samples) =>
    match nth_error ms i with
    | Some (Ready d) =>
      let '(key, subkey) := split key in
      Some (key, set_nth samples i (Some (sample d subkey)))
    | _ => None
    end
  end.

Definition draw_dependent (ms : list marginal) (deps : dependencies) (st : option lazy_state)
           (i : nat) : option lazy_state :=
  match st with
  | None => None
  | Some (key, samples) =>
    let '(key, subkey) := split key in
    match assoc_nat deps i with
    | None => None
    | Some dep =>
      match read_all samples dep, nth_error ms i with
      | Some kwargs, Some (Pending f) =>
        Some (key, set_nth samples i (Some (sample (f kwargs) subkey)))
      | Some _, Some (Ready d) => Some (key, set_nth samples i (Some (sample d subkey)))
      | _, _ => None
      end
    end
  end.

Fixpoint all_drawn (l : list (option (list X))) : option (list (list X)) :=
  match l with
  | [] => Some []
  | Some x :: t => match all_drawn t with Some r => Some (x :: r) | None => None end
  | None :: _ => None
  end.

Definition lazy_sample (ms : list marginal) (deps : dependencies) (partial_order independent : list nat)
           (key : K) : option (list X) :=
  let st := Some (key, map (fun _ => None) ms) in
  let st := fold_left (draw_independent ms) independent st in
  let st := fold_left (draw_dependent ms deps) partial_order st in
  match st with
  | None => None
  | Some (_, samples) =>
    match all_drawn samples with Some l => Some (List.concat l) | None => None end
  end.
End Joint.

(** ** ScaledMixture *)
Section Mixture.
Open Scope R_scope.

Record component := mkcomp {
  c_log_scale : X; c_lp : list X -> X; c_supp : list X -> bool; c_validate : bool }.

(** component_log_probs, _scaledmixture.py:151-161 *)
Definition component_log_prob (explicit_support : bool) (value : list X) (c : component) : X :=
  let log_prob := c_lp c value in
  let log_prob :=
      if explicit_support && negb (c_validate c)
      then (if c_supp c value then log_prob else NInf) else log_prob in
  xadd (c_log_scale c) log_prob.

(** ScaledMixture.log_prob, _scaledmixture.py:236-247 *)
Definition mixture_log_prob (explicit_support : bool) (cs : list component) (value : list X) : X :=
  let sum_log_probs := map (component_log_prob explicit_support value) cs in
  let safe := map (fun a => if isneginf a then NInf else a) sum_log_probs in
  logsumexp_where (combine (map (fun a => negb (isneginf a)) sum_log_probs) safe).

(** mean and variance of a scalar mixture, _scaledmixture.py:172-189, over the reals;
    components given as (log_scale, mean, variance) *)
Definition mixture_mean (cs : list (R * R * R)) : R :=
  fold_right (fun c acc => let '(s, m, v) := c in exp s * m + acc) 0 cs.
Definition mixture_variance (cs : list (R * R * R)) : R :=
  let mean_cond_var := fold_right (fun c acc => let '(s, m, v) := c in exp s * v + acc) 0 cs in
  let mu := mixture_mean cs in
  let var_cond_mean :=
      fold_right (fun c acc => let '(s, m, v) := c in exp s * ((m - mu) * (m - mu)) + acc) 0 cs in
  mean_cond_var + var_cond_mean.
(** cdf, _scaledmixture.py:191-201; components given as (log_scale, cdf) *)
Definition mixture_cdf (cs : list (R * (R -> R))) (x : R) : R :=
  fold_right (fun c acc => snd c x * exp (fst c) + acc) 0 cs.
End Mixture.
