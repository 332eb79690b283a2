(** Model of gwkanal/core/sage.py: from the loaded events to the buckets and constants handed to
    the likelihood, and the variance cut on the posterior samples. *)
From Coq Require Import Reals List Bool QArith.
From Verif Require Import Model_X Model_Jenks Model_Likelihood.
Import ListNotations.
Open Scope R_scope.

(** Sage.read_data, core/sage.py:90-155, and log_constants of Sage.run, core/sage.py:178.
    [events]: per event its (n_samples x ndim) array; [refs]: per event its log reference priors.
    The scalar log priors are rows of one element for [pad_and_stack]. [None] is an exception. *)
Definition read_data (jb : list nat -> nat -> option (list nat)) (ndim : nat)
           (events : list (list (list X))) (refs : list (list X))
           (n_buckets : option nat) (threshold : Q) (T_obs : R)
  : option (list (bucket (list X)) * X) :=
  if negb (Nat.eqb (length events) (length refs)) then None
  else
    match pad_and_stack jb
            [mkseq ndim (repeat (Fin 0) ndim) events;
             mkseq 1 [Fin 0] (map (map (fun r => [r])) refs)] n_buckets threshold with
    | Some ([data_group; ref_group], masks_group) =>
      let ref_group := map (map (map (hd NaN))) ref_group in
      (* np.where(mask, ref, 0.0), core/sage.py:123-126 *)
      let ref_group :=
        map2 (map2 (fun mask row => where_row mask row (map (fun _ => Fin 0) row)))
             masks_group ref_group in
      let bs := map2 (fun d p => mkbucket d (fst p) (snd p)) data_group
                     (combine ref_group masks_group) in
      let log_constants := xopp (xsum (map (fun d => xln (Fin (INR (length d)))) events)) in
      let log_constants := xadd log_constants
                                (xmul (Fin (INR (length events))) (xln (Fin T_obs))) in
      Some (bs, log_constants)
    | _ => None
    end.

(** batch_and_remainder, gwkokab/utils/tools.py:56-88: num_batches, remainder = divmod(n, size);
    the first num_batches*size rows reshaped to (num_batches, size, ...) and the rest.
    A non-positive size makes divmod raise or the reshape fail: [None]. *)
Fixpoint chunks {A} (size n : nat) (l : list A) : list (list A) :=
  match n with
  | O => []
  | S n' => firstn size l :: chunks size n' (skipn size l)
  end.
Definition batch_and_remainder {A} (l : list A) (size : nat) : option (list (list A) * list A) :=
  match size with
  | O => None
  | _ =>
    let num_batches := Nat.div (length l) size in
    let total := (num_batches * size)%nat in
    Some (chunks size num_batches (firstn total l), skipn total l)
  end.

(** np.nan_to_num(variance, nan=inf): NaN -> +inf, infinities -> largest finite numbers *)
Definition nan_to_num_inf (big : R) (a : X) : X :=
  match a with Fin x => Fin x | NaN => PInf | PInf => Fin big | NInf => Fin (- big) end.

(** samples[mask] with a boolean mask of equal length *)
Definition boolean_index {A} (l : list A) (mask : list bool) : list A :=
  map fst (filter snd (combine l mask)).

(** The variance cut of Sage.run, core/sage.py:238-284.  The loop goes over the batches and,
    if there is one, the remainder; no iteration at all leaves [mask = None] and the assertion
    fails. *)
Definition variance_cut {S} (big : R) (batch : nat) (variance : S -> X) (threshold : R)
           (samples : list S) : option (list S) :=
  match batch_and_remainder samples batch with
  | None => None
  | Some (batched, rem) =>
    let iters := batched ++ (match rem with [] => [] | _ => [rem] end) in
    let step (mask : option (list bool)) (bs : list S) :=
        let m := map (fun s => xltb (nan_to_num_inf big (variance s)) (Fin threshold)) bs in
        Some (match mask with None => m | Some mk => mk ++ m end) in
    match fold_left step iters None with
    | None => None
    | Some mask => Some (boolean_index samples mask)
    end
  end.
