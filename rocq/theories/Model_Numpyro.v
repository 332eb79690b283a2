(** The NumPyro driver: running chains in batches and saving them
    (src/gwkanal/core/numpyro_based.py). *)
From Coq Require Import Decimal DecimalString DecimalNat.
From Coq Require Import String List Arith Bool Reals.
From Verif Require Import Model_Key.
Import ListNotations.
Open Scope nat_scope.

(** a text table written with numpy.savetxt: optional header names and rows *)
Record table := Table { header : option (list string); rows : list (list R) }.

(** effects on the output directory, in the order they happen *)
Inductive op : Type :=
  | Write (path : string) (t : table)            (* np.savetxt(path, ...) *)
  | Append (path : string) (r : list (list R)).  (* with open(path, "a"): np.savetxt(f, ...) *)

(** a file system maps paths to tables *)
Definition files := string -> option table.
Definition exec (s : files) (o : op) : files :=
  match o with
  | Write p t => fun q => if String.eqb q p then Some t else s q
  | Append p r => fun q => if String.eqb q p
      then match s p with
           | Some t => Some (Table (header t) (rows t ++ r))
           | None => Some (Table None r)
           end
      else s q
  end.
Definition run_ops (s : files) (l : list op) : files := fold_left exec l s.

(** an array of shape (chains, draws), as returned per label by mcmc.get_samples(group_by_chain=True) *)
Record grouped := Grouped { n_chains : nat; n_draws : nat; at_ : nat -> nat -> R }.

(** [samples[key] for key in labels] (line 31): None is KeyError *)
Fixpoint lookup_all (samples : string -> option grouped) (labels : list string) : option (list grouped) :=
  match labels with
  | [] => Some []
  | l :: ls => match samples l, lookup_all samples ls with
               | Some g, Some gs => Some (g :: gs)
               | _, _ => None
               end
  end.

(** np.stack(arrays, axis=-1) (line 31): an empty list and differing shapes are ValueErrors;
    the result is given chain by chain, draw by draw *)
Definition same_shape (a b : grouped) : bool := (n_chains a =? n_chains b) && (n_draws a =? n_draws b).
Definition stack_last (arrs : list grouped) : option (list (list (list R))) :=
  match arrs with
  | [] => None
  | a :: _ =>
      if forallb (same_shape a) arrs
      then Some (map (fun c => map (fun t => map (fun g => at_ g c t) arrs) (seq 0 (n_draws a))) (seq 0 (n_chains a)))
      else None
  end.

(** lines 25 and 37 *)
Definition inference_directory : string := "numpyro_inference".
Definition samples_path : string := (inference_directory ++ "/" ++ "samples.dat")%string.
(** f"/chain_{start_chain_idx + i}.dat" (line 49) *)
Definition chain_path (i : nat) : string :=
  (inference_directory ++ "/chain_" ++ NilEmpty.string_of_uint (Nat.to_uint i) ++ ".dat")%string.

(** _save_inference_data (lines 28-55). np.concat of the per-chain arrays along axis 0 needs at
    least one chain. *)
Fixpoint enumerate_from {A} (i : nat) (l : list A) : list (nat * A) :=
  match l with [] => [] | a :: l' => (i, a) :: enumerate_from (S i) l' end.
Definition save_inference_data (samples : string -> option grouped) (start_chain_idx : nat) (labels : list string)
  : option (list op) :=
  match lookup_all samples labels with
  | None => None
  | Some arrs =>
      match stack_last arrs with
      | None => None
      | Some [] => None
      | Some samples_per_chain =>
          let combined := concat samples_per_chain in
          let first := if start_chain_idx =? 0
                       then Write samples_path (Table (Some labels) combined)
                       else Append samples_path combined in
          Some (first :: map (fun ic => Write (chain_path (start_chain_idx + fst ic)) (Table (Some labels) (snd ic)))
                             (enumerate_from 0 samples_per_chain))
      end
  end.

Section Run.
(** mcmc.run followed by mcmc.get_samples(group_by_chain=True) on a sampler with the given number
    of chains: an oracle *)
Variable mcmc : rng -> nat -> string -> option grouped.
Variable labels : list string.

(** _run_batch_and_save (lines 83-90): returns the new key and the effects *)
Definition run_batch (key : rng) (num_chains chain_idx : nat) : option (rng * list op) :=
  let (key, subkey) := split2 key in
  match save_inference_data (mcmc subkey num_chains) chain_idx labels with
  | None => None
  | Some ops => Some (key, ops)
  end.

(** the loop over full batches (lines 92-95) *)
Fixpoint batches (n_batches batch_size : nat) (key : rng) (chain_idx : nat) : option (rng * nat * list op) :=
  match n_batches with
  | 0 => Some (key, chain_idx, [])
  | S k => match run_batch key batch_size chain_idx with
           | None => None
           | Some (key', ops) =>
               match batches k batch_size key' (chain_idx + batch_size) with
               | None => None
               | Some (key'', idx, ops') => Some (key'', idx, ops ++ ops')
               end
           end
  end.

(** _run_mcmc (lines 58-99): chain_method has no default (KeyError), num_chains defaults to 1 and
    zero chains give a ZeroDivisionError *)
Definition run_mcmc (n_devices : nat) (chain_method : option string) (num_chains : option nat) (key : rng)
  : option (list op) :=
  match chain_method with
  | None => None
  | Some cm =>
      let cm := if negb (String.eqb cm "parallel") && (1 <? n_devices) then "parallel"%string else cm in
      let n := match num_chains with Some n => n | None => 1 end in
      let batch_size := if String.eqb cm "vectorized" then n else Nat.min n n_devices in
      if batch_size =? 0 then None
      else
        let n_batches := n / batch_size in
        match batches n_batches batch_size key 0 with
        | None => None
        | Some (key', chain_idx, ops) =>
            let remaining := n - n_batches * batch_size in
            if 0 <? remaining
            then match run_batch key' remaining chain_idx with
                 | None => None
                 | Some (_, ops') => Some (ops ++ ops')
                 end
            else Some ops
        end
  end.
End Run.
