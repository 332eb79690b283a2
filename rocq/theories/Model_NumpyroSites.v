(** Model of the sample sites declared by the NumPyro likelihood:
    gwkokab/inference/poissonlikelihood_numpyro.py. *)
From Coq Require Import String Reals List Bool Arith.
From Verif Require Import Model_X Model_Joint Model_Guru.
Import ListNotations.
Open Scope nat_scope.

Section Sites.
Context {K : Type}.

(** one call of numpyro.sample: its name, its distribution and the value it returned *)
Record site := mksite { s_name : string; s_dist : dist K; s_value : list X }.

(** entries of [partial_variables_samples]: a drawn value, or the pair of the name and the Partial *)
Inductive slot :=
| Drawn (x : list X)
| Waiting (n : string) (f : list (string * list X) -> dist K).

(** what numpyro.sample returns; it is decided by the effect handlers around the model (a draw, a
    substituted value, ...), so it may depend on the name and on the distribution *)
Variable handler : string -> dist K -> list X.

(** the list comprehension of poissonlikelihood_numpyro.py:101-106 *)
Fixpoint declare_ready (vars : list (string * marginal)) : list site * list slot :=
  match vars with
  | [] => ([], [])
  | (n, Ready d) :: t =>
    let '(sites, slots) := declare_ready t in
    (mksite n d (handler n d) :: sites, Drawn (handler n d) :: slots)
  | (n, Pending f) :: t =>
    let '(sites, slots) := declare_ready t in (sites, Waiting n f :: slots)
  end.

(** kwargs, poissonlikelihood_numpyro.py:109-111.  Python would hand the pair itself to the
    distribution if the entry is still waiting; that is an error here. *)
Fixpoint read_slots (slots : list slot) (dep : list (string * nat)) : option (list (string * list X)) :=
  match dep with
  | [] => Some []
  | (k, v) :: t =>
    match nth_error slots v, read_slots slots t with
    | Some (Drawn x), Some r => Some ((k, x) :: r)
    | _, _ => None
    end
  end.

(** the body of the loop over [partial_order], poissonlikelihood_numpyro.py:108-122; unpacking an
    entry that has already been drawn raises *)
Definition declare_waiting (deps : dependencies) (st : option (list site * list slot)) (i : nat)
  : option (list site * list slot) :=
  match st with
  | None => None
  | Some (sites, slots) =>
    match assoc_nat deps i with
    | None => None
    | Some dep =>
      match read_slots slots dep, nth_error slots i with
      | Some kwargs, Some (Waiting n f) =>
        let d := f kwargs in
        Some (sites ++ [mksite n d (handler n d)], set_nth slots i (Drawn (handler n d)))
      | _, _ => None
      end
    end
  end.

Fixpoint drawn_values (slots : list slot) : option (list (list X)) :=
  match slots with
  | [] => Some []
  | Drawn x :: t => match drawn_values t with Some r => Some (x :: r) | None => None end
  | Waiting _ _ :: _ => None
  end.

(** poissonlikelihood_numpyro.py:30-37 and 100-128: the sites declared and [variables_samples].
    [sorted_variables] is the list of names and priors sorted by name; the prior is a
    LazyJointDistribution exactly if [partial_order] is not empty (guru.py:316-332). *)
Definition numpyro_sites (r : prior K) : option (list site * list (list X)) :=
  let st := declare_ready (combine (r_sorted r) (r_marginals r)) in
  let st := fold_left (declare_waiting (r_deps r)) (r_order r) (Some st) in
  match st with
  | None => None
  | Some (sites, slots) =>
    match drawn_values slots with Some v => Some (sites, v) | None => None end
  end.

(** log_prob of the prior built by classify_model_parameters (guru.py:314-332), which the flowMC
    likelihood adds; every marginal is scalar.  An error is NaN. *)
Definition prior_log_prob (r : prior K) (v : list X) : X :=
  match r_order r with
  | [] => match all_ready (r_marginals r) with Some ds => log_prob (Joint ds None) v | None => NaN end
  | _ => match lazy_log_prob (fun _ => None) (r_marginals r) (r_deps r) v with Some x => x | None => NaN end
  end.
End Sites.
Arguments site K : clear implicits.
Arguments slot K : clear implicits.
