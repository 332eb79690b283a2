(** Training of the regressors (src/gwkokab/utils/train.py). *)
From Coq Require Import String.
From Coq Require Import Reals List Bool Arith ZArith.
From Verif Require Import Model_X Model_Injections.
Import ListNotations.
Open Scope R_scope.

(** int(x): rounding towards zero *)
Definition trunc (x : R) : Z := if Rle_dec 0 x then Int_part x else (- Int_part (- x))%Z.
(** _train_test_data_split (lines 162-187): the position of the split, and the parts.  [indices] is the
    permutation drawn; 1 - test_size is exact. *)
Definition split_position (n batch_size : Z) (test_size : R) : Z :=
  let split := trunc (IZR n * (1 - test_size)) in
  let split := (Z.max split batch_size / batch_size * batch_size)%Z in
  if (2 * batch_size <=? n)%Z then Z.min split (n - batch_size) else Z.max batch_size split.
(** rows [X[indices]] *)
Definition take_rows {A} (d : A) (xs : list A) (indices : list nat) : list A := map (fun i => nth i xs d) indices.
Definition train_test_data_split {A B} (dx : A) (dy : B) (xs : list A) (ys : list B) (indices : list nat) (batch_size : Z) (test_size : R)
  : list A * list A * list B * list B :=
  let split := Z.to_nat (split_position (Z.of_nat (length xs)) batch_size test_size) in
  let train := firstn split indices in
  let test := skipn split indices in
  (take_rows dx xs train, take_rows dx xs test, take_rows dy ys train, take_rows dy ys test).

(** Targets when train_in_log (lines 238-245); [tiny] is finfo.tiny *)
Definition log_target (tiny : R) (y : X) : X :=
  let l := xln y in if isneginf l then Fin (- tiny) else l.

(** Mini-batches of an epoch (lines 334-341): train_X[i : i + batch_size] for i in range(0, len, batch_size) *)
Definition range_step (n b : nat) : list nat := map (fun k => (k * b)%nat) (seq 0 ((n + b - 1) / b)).
Definition slice {A} (i j : nat) (l : list A) : list A := firstn (j - i) (skipn i l).
Definition minibatches {A} (b : nat) (xs : list A) : list (list A) := map (fun i => slice i (i + b) xs) (range_step (length xs) b).
(** the reported loss of an epoch (lines 332-345), from the losses of the mini-batches *)
Definition epoch_loss (n b : nat) (losses : list R) : R := fold_left Rplus losses 0 / INR (Nat.max 1 (n / b)).
(** jnp.mean *)
Definition mean (l : list R) : R := fold_left Rplus l 0 / INR (length l).

(** bce_logits_loss_fn (lines 37-53), one entry: labels clipped to [eps, 1 - eps], then
    optax.sigmoid_binary_cross_entropy = - y log_sigmoid(l) - (1 - y) log_sigmoid(-l) *)
Definition clip (y lo hi : R) : R := Rmin (Rmax y lo) hi.
Definition log_sigmoid (l : R) : R := - ln (1 + exp (- l)).
Definition bce_logits (eps l y : R) : R :=
  let y := clip y eps (1 - eps) in - y * log_sigmoid l - (1 - y) * log_sigmoid (- l).

(** Steps of the schedule (lines 277-279) *)
Definition steps_per_epoch (n_train b : Z) : Z := Z.max 1 (n_train / b).
Definition total_steps (n_train b epochs : Z) : Z := Z.max 1 (steps_per_epoch n_train b * epochs).
Definition warmup_steps (n_train b epochs warmup_epochs : Z) : Z :=
  Z.min (total_steps n_train b epochs) (Z.max 0 warmup_epochs * steps_per_epoch n_train b).
(** optax.warmup_cosine_decay_schedule with init_value 0 (lines 281-288).  optax takes decay_steps to
    include the warm-up, and refuses a cosine part without steps. *)
Definition warmup_cosine (peak end_value : R) (warm decay : Z) : option (Z -> R) :=
  if (decay - warm <=? 0)%Z then None else Some (fun k =>
    if (k <? warm)%Z then peak * (IZR k / IZR warm)
    else
      let d := IZR (decay - warm) in
      let t := Rmin (IZR (k - warm)) d in
      let alpha := end_value / peak in
      peak * ((1 - alpha) * (1/2 * (1 + cos (PI * t / d))) + alpha)).
Definition schedule (n_train b epochs warmup_epochs : Z) (learning_rate min_lr : R) : option (Z -> R) :=
  let total := total_steps n_train b epochs in
  let warm := warmup_steps n_train b epochs warmup_epochs in
  warmup_cosine learning_rate min_lr warm (Z.max 1 (total - warm)).

(** Saving and loading (lines 93-154).  W and B are the types of weights and biases; the network is
    eqx.nn.MLP, whose activation is always relu here. *)
Section Save.
Context {W B : Type}.
Record mlp := { in_size : Z; out_size : Z; width_size : Z; depth : nat; layers : list (W * B) }.
(** an HDF5 file: attributes, the optional data set "names", the four sizes, and the groups layer_0, layer_1, ... *)
Context {V : Type}.
Record h5 := { attrs : list (string * V); names_ds : option (list string); sizes : Z * Z * Z * nat; groups : list (W * B) }.
Variable of_bool : bool -> V.
(** save_model; [data_attrs] are the attributes of the data file; None for a path without .hdf5 *)
Definition ends_with (suffix s : string) : bool :=
  (String.length suffix <=? String.length s)%nat && String.eqb (String.substring (String.length s - String.length suffix) (String.length suffix) s) suffix.
Definition save_model (filepath : string) (data_attrs : list (string * V)) (m : mlp) (names : option (list string)) (is_log : bool) : option h5 :=
  if negb (ends_with ".hdf5" filepath) then None else
  Some {| attrs := dset (fold_left (fun a kv => dset a (fst kv) (snd kv)) data_attrs []) "is_log" (of_bool is_log);
          names_ds := names;
          sizes := (in_size m, out_size m, width_size m, depth m);
          groups := layers m |}.
(** load_model: a fresh network of the stored sizes (depth + 1 layers, parameters from PRNGKey(0)), whose
    layers are replaced one by one; a layer beyond the network is an IndexError, no names a KeyError *)
Variable fresh_layer : Z -> Z -> Z -> nat -> nat -> W * B. (* sizes and index of the layer *)
Definition new_mlp (i o w : Z) (d : nat) : mlp :=
  {| in_size := i; out_size := o; width_size := w; depth := d; layers := map (fresh_layer i o w d) (seq 0 (S d)) |}.
Fixpoint replace_nth (k : nat) (x : W * B) (l : list (W * B)) : option (list (W * B)) :=
  match l, k with
  | [], _ => None
  | _ :: t, O => Some (x :: t)
  | y :: t, S k => bind (replace_nth k x t) (fun t' => Some (y :: t'))
  end.
Fixpoint set_layers (k : nat) (gs : list (W * B)) (l : list (W * B)) : option (list (W * B)) :=
  match gs with
  | [] => Some l
  | g :: gs => bind (replace_nth k g l) (fun l' => set_layers (S k) gs l')
  end.
Definition load_model (f : h5) : option (list string * mlp) :=
  bind (names_ds f) (fun names =>
    let '(i, o, w, d) := sizes f in
    let m := new_mlp i o w d in
    bind (set_layers 0 (groups f) (layers m)) (fun l =>
      Some (names, {| in_size := in_size m; out_size := out_size m; width_size := width_size m; depth := depth m; layers := l |}))).
End Save.
Arguments mlp : clear implicits.
Arguments h5 : clear implicits.
