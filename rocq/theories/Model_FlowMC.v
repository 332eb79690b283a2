(** The flowMC driver: strategy order, execution, buffers and saved samples, and the HMC kernel
    (src/gwkanal/core/flowMC_based.py). *)
From Coq Require Import String List Arith Bool ZArith Reals.
From Verif Require Import Model_X Model_Key.
Import ListNotations.
Open Scope nat_scope.

(** ** Local_Global_Sampler_Bundle: strategy order (lines 449-477) *)
Definition training_phase : list string :=
  ["local_stepper"; "update_global_step"; "model_trainer"; "update_model"; "global_stepper"; "update_local_step"]%string.
Definition production_phase : list string :=
  ["local_stepper"; "update_global_step"; "global_stepper"; "update_local_step"]%string.
Fixpoint loops (n : nat) (phase : list string) : list string :=
  match n with 0 => [] | S k => phase ++ loops k phase end.
Definition bundle_order (n_training_loops n_production_loops : nat) : list string :=
  loops n_training_loops training_phase ++ ["reset_steppers"; "update_state"]%string
  ++ loops n_production_loops production_phase.
(** keys of self.strategies (lines 438-447) *)
Definition bundle_strategies : list string :=
  ["local_stepper"; "global_stepper"; "model_trainer"; "update_state"; "update_global_step"; "update_local_step";
   "reset_steppers"; "update_model"]%string.

(** ** Sampler.sample (lines 566-644): which strategies are run, in order *)
(** python slice l[a:b] for non-negative bounds *)
Definition slice {A} (l : list A) (a b : nat) : list A := firstn (b - a) (skipn a l).
Definition str_in (s : string) (l : list string) : bool := existsb (String.eqb s) l.
Definition count_str (s : string) (l : list string) : nat := length (filter (String.eqb s) l).

Record schedule := Schedule { tuning : list (list string); transition : list string; sampling : list (list string) }.
Definition sample_schedule (strategies order : list string) : option schedule :=
  if forallb (fun s => str_in s strategies) order then
    let n_total := length order in
    let n_global := count_str "model_trainer" order in
    let n_local := Z.to_nat ((Z.of_nat n_total - 6 * Z.of_nat n_global - 2) / 4) in
    let offset := 6 * n_global + 2 in
    Some (Schedule (map (fun i => slice order (6 * i) (6 * (i + 1))) (seq 0 n_global))
                   (slice order (6 * n_global) (6 * n_global + 2))
                   (map (fun i => slice order (offset + 4 * i) (offset + 4 * (i + 1))) (seq 0 n_local)))
  else None.
Definition executed (s : schedule) : list string := concat (tuning s) ++ transition s ++ concat (sampling s).

(** ** Buffers and steppers *)
Definition row := list X.
(** flowMC.resource.buffers.Buffer.update_buffer: jax.lax.dynamic_update_slice_in_dim, which moves
    the start back so that the update fits (external) *)
Definition update_slice (buf : list row) (start : nat) (rows : list row) : list row :=
  let start := Nat.min start (length buf - length rows) in
  firstn start buf ++ rows ++ skipn (start + length rows) buf.

Section Steppers.
(** what the local and global steppers return: rows for the k-th call and the given chain, after
    thinning. The samplers themselves are not modelled. *)
Variables local_out global_out : nat -> nat -> list row.
(** n_local_steps // local_thinning and n_global_steps // global_thinning (lines 243-244, 973-974) *)
Variables n_local_per_loop n_global_per_loop : nat.

Record state := State {
  local_calls : nat; global_calls : nat;      (* how many times the steppers were called *)
  local_position : nat; global_position : nat; (* stepper.current_position *)
  training : bool;                             (* sampler_state target *)
  train_buffer : nat -> list row; prod_buffer : nat -> list row }. (* per chain *)

(** a stepper call writes its rows at its current position of the target buffer and advances by
    its number of steps (flowMC.strategy.take_steps, external) *)
Definition write (s : state) (start : nat) (out : nat -> list row) : (nat -> list row) * (nat -> list row) :=
  if training s
  then (fun c => update_slice (train_buffer s c) start (out c), prod_buffer s)
  else (train_buffer s, fun c => update_slice (prod_buffer s c) start (out c)).

(** self.strategies[name](...) (lines 337-447); "model_trainer" and "update_model" change the
    flow network only *)
Definition run_strategy (name : string) (s : state) : state :=
  if String.eqb name "local_stepper" then
    let (t, p) := write s (local_position s) (local_out (local_calls s)) in
    State (S (local_calls s)) (global_calls s) (local_position s + n_local_per_loop) (global_position s) (training s) t p
  else if String.eqb name "global_stepper" then
    let (t, p) := write s (global_position s) (global_out (global_calls s)) in
    State (local_calls s) (S (global_calls s)) (local_position s) (global_position s + n_global_per_loop) (training s) t p
  else if String.eqb name "update_global_step" then
    State (local_calls s) (global_calls s) (local_position s) (local_position s) (training s) (train_buffer s) (prod_buffer s)
  else if String.eqb name "update_local_step" then
    State (local_calls s) (global_calls s) (global_position s) (global_position s) (training s) (train_buffer s) (prod_buffer s)
  else if String.eqb name "reset_steppers" then
    State (local_calls s) (global_calls s) 0 0 (training s) (train_buffer s) (prod_buffer s)
  else if String.eqb name "update_state" then
    State (local_calls s) (global_calls s) (local_position s) (global_position s) false (train_buffer s) (prod_buffer s)
  else s.
Definition run_strategies (names : list string) (s : state) : state := fold_left (fun s n => run_strategy n s) names s.

(** buffers are created full of minus infinity with the sizes of lines 245-284 *)
Definition fresh (n_dims n_steps : nat) : list row := repeat (repeat NInf n_dims) n_steps.
Definition initial_state (n_dims n_training_loops n_production_loops : nat) : state :=
  State 0 0 0 0 true
    (fun _ => fresh n_dims ((n_local_per_loop + n_global_per_loop) * n_training_loops))
    (fun _ => fresh n_dims ((n_local_per_loop + n_global_per_loop) * n_production_loops)).

(** _save_samples (lines 761-803): the rows of the samples file *)
Definition selected_indices (n_steps : nat) : list nat :=
  filter (fun idx => idx mod (n_local_per_loop + n_global_per_loop) <? n_local_per_loop) (seq 0 n_steps).
Definition save_samples (n_chains n_steps : nat) (s : state) : list row :=
  let picked := concat (map (fun c => map (fun i => nth i (prod_buffer s c) []) (selected_indices n_steps)) (seq 0 n_chains)) in
  filter (fun r => negb (existsb isneginf r)) picked.

(** production loops of Sampler.sample (lines 619-644): the samples file is rewritten after every strategy *)
Fixpoint run_and_save (n_chains n_steps : nat) (names : list string) (s : state) : state * list (list row) :=
  match names with
  | [] => (s, [])
  | n :: ns => let s' := run_strategy n s in
               let (s'', saved) := run_and_save n_chains n_steps ns s' in
               (s'', save_samples n_chains n_steps s' :: saved)
  end.
(** all versions of the samples file written by a run of the bundle *)
Definition saved_versions (n_chains n_dims t p : nat) : option (list (list row)) :=
  match sample_schedule bundle_strategies (bundle_order t p) with
  | None => None
  | Some sch =>
      let s := run_strategies (concat (tuning sch) ++ transition sch) (initial_state n_dims t p) in
      Some (snd (run_and_save n_chains ((n_local_per_loop + n_global_per_loop) * p) (concat (sampling sch)) s))
  end.
End Steppers.

(** ** _HMC (lines 53-179)

    Positions and momenta are vectors of reals, given by their coordinates. *)
Open Scope R_scope.
Definition vec := nat -> R.
Definition vadd (a b : vec) : vec := fun i => a i + b i.
Definition vscale (c : R) (a : vec) : vec := fun i => c * a i.
Definition vneg (a : vec) : vec := fun i => - a i.

(** self.leapfrog_coefs (lines 83-86): ones with the first row (0, 1/2) and the last row (1, 1/2) *)
Definition leapfrog_coefs (n_leapfrog index : nat) : R * R :=
  if (index =? n_leapfrog + 1)%nat then (1, 1/2)
  else if (index =? 0)%nat then (0, 1/2) else (1, 1).

Section HMC.
(** jax.grad(kinetic)(., metric) and jax.grad(potential)(., data) *)
Variables velocity gradient : vec -> vec.
Variable step_size : R.
Variable n_leapfrog : nat.

(** leapfrog_kernel (lines 104-118) *)
Definition leapfrog_kernel (carry : vec * vec * nat) : vec * vec * nat :=
  let '(position, momentum, index) := carry in
  let position := vadd position (vscale (step_size * fst (leapfrog_coefs n_leapfrog index)) (velocity momentum)) in
  let momentum := vadd momentum (vneg (vscale (step_size * snd (leapfrog_coefs n_leapfrog index)) (gradient position))) in
  (position, momentum, S index).
(** leapfrog_step (lines 120-133): a scan of n_leapfrog + 2 iterations from index 0 *)
Definition leapfrog_step (position momentum : vec) : vec * vec :=
  fst (Nat.iter (n_leapfrog + 2) leapfrog_kernel (position, momentum, 0%nat)).

(** kernel (lines 135-179) *)
Variable logpdf : vec -> X.
Variable kinetic : vec -> X.
Variable draw_momentum : rng -> vec.   (* cholesky(M) @ normal(key1) *)
Variable draw_uniform : rng -> R.      (* uniform(key2) *)
Definition hmc_kernel (key : rng) (position : vec) (log_prob : X) : vec * X * bool :=
  let (key1, key2) := split2 key in
  let momentum := draw_momentum key1 in
  let H := xadd (xopp log_prob) (kinetic momentum) in
  let '(proposed_position, proposed_momentum) := leapfrog_step position momentum in
  let proposed_PE := xopp (logpdf proposed_position) in
  let proposed_ham := xadd proposed_PE (kinetic proposed_momentum) in
  let log_acc := xsub H proposed_ham in
  let log_uniform := xln (Fin (draw_uniform key2)) in
  let do_accept := xltb log_uniform log_acc in
  (if do_accept then proposed_position else position,
   if do_accept then xopp proposed_PE else log_prob, do_accept).
(** repeated steps, as driven by the stepper *)
Fixpoint hmc_steps (keys : list rng) (position : vec) (log_prob : X) : vec * X :=
  match keys with
  | [] => (position, log_prob)
  | k :: ks => let '(p, l, _) := hmc_kernel k position log_prob in hmc_steps ks p l
  end.
End HMC.
