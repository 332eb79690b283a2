(** The files written by a run of the flowMC driver: chains, log-densities, acceptance rates and
    samples (src/gwkanal/core/flowMC_based.py 566-803). The loss file is not modelled. *)
From Coq Require Import Decimal DecimalString DecimalNat.
From Coq Require Import String Ascii List Arith Bool ZArith Reals.
From Verif Require Import Model_X Model_Key Model_FlowMC.
Import ListNotations.
Open Scope nat_scope.

(** ** Names *)
(** str(n) for a non-negative integer *)
Definition decimal (n : nat) : string := NilEmpty.string_of_uint (Nat.to_uint n).
(** s.zfill(width) for a string of digits *)
Fixpoint zeros (k : nat) : string := match k with 0 => EmptyString | S j => String "0"%char (zeros j) end.
Definition zfill (width : nat) (s : string) : string := (zeros (width - String.length s) ++ s)%string.
(** _INFERENCE_DIRECTORY (gwkanal/utils/literals.py; flowMC_based.py, top) *)
Definition directory : string := "flowMC_inference".
(** tag (lines 745-748); with no chains the loop is empty, whatever the width *)
Definition tag (n_chains n : nat) : string := zfill (String.length (decimal (n_chains - 1))) (decimal n).
(** lines 750 and 755 *)
Definition chain_file (phase tag : string) : string := (directory ++ "/" ++ phase ++ "_chains_" ++ tag ++ ".dat")%string.
Definition log_prob_file (phase tag : string) : string := (directory ++ "/log_prob_" ++ phase ++ "_" ++ tag ++ ".dat")%string.
(** line 707 *)
Definition accs_file (acc_type : string) : string := (directory ++ "/" ++ acc_type ++ "_accs.dat")%string.
(** line 800; POSTERIOR_SAMPLES_FILENAME *)
Definition samples_file : string := (directory ++ "/samples.dat")%string.

(** a text file written by np.savetxt: its first line (comments + header) and its rows *)
Record text := Text { first_line : string; lines : list (list X) }.
Definition write_op := (string * text)%type.
(** a directory maps paths to files; writing replaces *)
Definition put (d : string -> option text) (w : write_op) : string -> option text :=
  fun q => if String.eqb q (fst w) then Some (snd w) else d q.
Definition put_all (d : string -> option text) (ws : list write_op) : string -> option text := fold_left put ws d.

(** " ".join(labels) *)
Definition joined (labels : list string) : string := String.concat " " labels.

(** ** _save_chains (lines 713-758)

    The buffers of one phase, None if the key is missing from the resources. The file of chain n is
    written from the rows of chain n; a one-dimensional array has one number per row. *)
Definition save_chains (labels : list string) (n_chains : nat) (is_training : bool)
  (buffers : option ((nat -> list row) * (nat -> list row))) : list write_op :=
  let phase := if is_training then "train"%string else "prod"%string in
  match buffers with
  | None => []
  | Some (positions, log_probs) =>
      concat (map (fun n =>
        [(chain_file phase (tag n_chains n), Text ("# " ++ joined labels) (positions n));
         (log_prob_file phase (tag n_chains n), Text ("# " ++ phase) (log_probs n))]) (seq 0 n_chains))
  end.

(** ** _save_acceptances (lines 676-710) *)
(** the number in a row of a buffer without coordinates *)
Definition scalar (r : row) : X := hd NaN r.
(** np.array(buffer).mean(0): the mean over the chains at every step *)
Definition mean_over_chains (n_chains n_steps : nat) (buffer : nat -> list row) : list X :=
  map (fun i => xdiv (fold_right xadd (Fin 0) (map (fun c => scalar (nth i (buffer c) [])) (seq 0 n_chains)))
                     (Fin (INR n_chains))) (seq 0 n_steps).
(** _same_length_arrays (lines 657-673); None becomes NaN in an array of floats *)
Definition pad (length_ : nat) (a : list X) : list X := a ++ repeat NaN (length_ - length a).
(** a buffer with its number of steps; the file of one kind of step *)
Definition save_accs (acc_type : string) (n_chains : nat) (train prod : option (nat * (nat -> list row))) : write_op :=
  let data o := match o with Some (n, b) => mean_over_chains n_chains n b | None => [] end in
  let max_len := Nat.max (length (data train)) (length (data prod)) in
  (accs_file acc_type,
   Text "#train prod" (map (fun tp => [fst tp; snd tp]) (combine (pad max_len (data train)) (pad max_len (data prod))))).

(** ** The run *)
(** one buffer family during a run: positions and log-densities are written by both steppers, the
    local and global acceptances by their own stepper only (lines 334-356); the other stepper
    advances and leaves the buffer as it is *)
Record channel := Channel {
  by_local : bool; by_global : bool; local_rows_of : nat -> nat -> list row; global_rows_of : nat -> nat -> list row }.
Section Run.
Variables nl ng : nat.
Definition run_channel (ch : channel) (name : string) (s : state) : state :=
  let s' := run_strategy (local_rows_of ch) (global_rows_of ch) nl ng name s in
  if (String.eqb name "local_stepper" && negb (by_local ch)) || (String.eqb name "global_stepper" && negb (by_global ch))
  then State (local_calls s') (global_calls s') (local_position s') (global_position s') (training s')
             (train_buffer s) (prod_buffer s)
  else s'.

(** what the steppers return for the four families: per call and chain *)
Record outputs := Outputs { position_rows : channel; log_prob_rows : channel; local_acc_rows : channel; global_acc_rows : channel }.
Record world := World { positions_ : state; log_probs_ : state; local_accs_ : state; global_accs_ : state }.
Definition run_world (o : outputs) (name : string) (w : world) : world :=
  World (run_channel (position_rows o) name (positions_ w)) (run_channel (log_prob_rows o) name (log_probs_ w))
        (run_channel (local_acc_rows o) name (local_accs_ w)) (run_channel (global_acc_rows o) name (global_accs_ w)).
Definition initial_world (n_dims t p : nat) : world :=
  World (initial_state nl ng n_dims t p) (initial_state nl ng 1 t p) (initial_state nl ng 1 t p) (initial_state nl ng 1 t p).

Section Saving.
Variables (labels : list string) (n_chains t p : nat).
Definition train_steps : nat := (nl + ng) * t.
Definition prod_steps : nat := (nl + ng) * p.
Definition acceptances (w : world) : list write_op :=
  [save_accs "global" n_chains (Some (train_steps, train_buffer (global_accs_ w))) (Some (prod_steps, prod_buffer (global_accs_ w)));
   save_accs "local" n_chains (Some (train_steps, train_buffer (local_accs_ w))) (Some (prod_steps, prod_buffer (local_accs_ w)))].
(** lines 613-615, without the loss *)
Definition tuning_writes (w : world) : list write_op :=
  acceptances w ++ save_chains labels n_chains true (Some (train_buffer (positions_ w), train_buffer (log_probs_ w))).
(** lines 635-642 *)
Definition sampling_writes (w : world) : list write_op :=
  acceptances w ++ save_chains labels n_chains false (Some (prod_buffer (positions_ w), prod_buffer (log_probs_ w)))
  ++ [(samples_file, Text ("# " ++ joined labels) (save_samples nl ng n_chains prod_steps (positions_ w)))].
(** running strategies, saving after each of them *)
Fixpoint run_saving (o : outputs) (writes : world -> list write_op) (names : list string) (w : world)
  : world * list write_op :=
  match names with
  | [] => (w, [])
  | n :: ns => let w' := run_world o n w in
               let (w'', ws) := run_saving o writes ns w' in (w'', writes w' ++ ws)
  end.
(** Sampler.sample (lines 566-644): all writes, in order *)
Definition all_writes (o : outputs) (n_dims : nat) : option (list write_op) :=
  match sample_schedule bundle_strategies (bundle_order t p) with
  | None => None
  | Some sch =>
      let (w1, ws1) := run_saving o tuning_writes (concat (tuning sch)) (initial_world n_dims t p) in
      let w2 := fold_left (fun w n => run_world o n w) (transition sch) w1 in
      let (_, ws2) := run_saving o sampling_writes (concat (sampling sch)) w2 in
      Some (ws1 ++ ws2)
  end.
End Saving.
End Run.
(** the bundle (lines 334-356): which stepper writes which buffers *)
Definition bundle_outputs (lpos gpos llp glp lacc gacc : nat -> nat -> list row) : outputs :=
  Outputs (Channel true true lpos gpos) (Channel true true llp glp) (Channel true false lacc (fun _ _ => []))
          (Channel false true (fun _ _ => []) gacc).
