(** Model of gwkanal/utils/jenks.py: grouping per-event arrays of unequal length into padded,
    masked buckets.

    Python exceptions are [None].  All exceptions raised in this file are ValueError
    (error_if, src/gwkokab/utils/tools.py:12-33). *)
From Coq Require Import List Bool Arith QArith.
Import ListNotations.
Open Scope nat_scope.

Section Jenks.

(** One row of an event array (a row of posterior samples, or one scalar log prior). *)
Variable A : Type.

(** [jenkspy.jenks_breaks data n_classes], an external library: [None] is a ValueError. *)
Variable jenks_breaks : list nat -> nat -> option (list nat).

(** A sequence of event arrays.  All arrays of one sequence share the trailing shape
    (jnp.stack in _pad_and_stack_bucket raises otherwise): [row_size] elements per row, and
    [zero_row] the row filled with zeros used by jnp.pad. *)
Record aseq := mkseq { row_size : nat; zero_row : A; items : list (list A) }.

(** max(bucket) for a non-empty bucket; jenks.py:52,76,323,356 *)
Definition max_list (l : list nat) : nat := fold_right Nat.max 0 l.

Definition sum_list (l : list nat) : nat := fold_right Nat.add 0 l.

Definition qnat (n : nat) : Q := inject_Z (Z.of_nat n).

(** _loss, jenks.py:31-60 *)
Definition loss (bucket : list nat) : Q :=
  match bucket with
  | [] => 0%Q
  | _ =>
    let max_size := max_list bucket in
    if max_size =? 0 then 0%Q
    else ((1 - qnat (sum_list bucket) / (qnat (length bucket) * qnat max_size)) * 100)%Q
  end.

(** _total_loss, jenks.py:63-84 *)
Definition nonempty {B} (l : list B) : bool := match l with [] => false | _ => true end.
Definition total_loss (subsets : list (list nat)) : Q :=
  let total_space :=
    sum_list (map (fun s => length s * max_list s) (filter nonempty subsets)) in
  let total_used := sum_list (map sum_list (filter nonempty subsets)) in
  if total_space =? 0 then 0%Q
  else ((1 - qnat total_used / qnat total_space) * 100)%Q.

(** np.searchsorted(data, value, side="right") on sorted data: how many entries are <= value *)
Definition searchsorted_right (data : list nat) (value : nat) : nat :=
  length (filter (fun d => d <=? value) data).

(** _right_most_index, jenks.py:87-112 *)
Definition right_most_index (data : list nat) (value : nat) : option nat :=
  let idx := searchsorted_right data value in
  if (idx =? 0) || negb (nth (idx - 1) data 0 =? value) then None else Some (idx - 1).

Fixpoint map_option {B C} (f : B -> option C) (l : list B) : option (list C) :=
  match l with
  | [] => Some []
  | x :: t => match f x, map_option f t with Some y, Some u => Some (y :: u) | _, _ => None end
  end.

(** l[-1] = v on a non-empty list *)
Definition set_last {B} (l : list B) (v : B) : list B := removelast l ++ [v].

(** _jenks_natural_breaks, jenks.py:115-161 *)
Definition jenks_natural_breaks (data : list nat) (n_buckets : nat) : option (list nat) :=
  if (n_buckets <? 1) || (length data <? n_buckets) then None
  else
    match (if n_buckets =? 1 then Some [hd 0 data; last data 0]
           else jenks_breaks data n_buckets) with
    | None => None
    | Some breaks =>
      match map_option (right_most_index data) (tl breaks) with
      | None => None
      | Some rightmost =>
        let indexes := 0 :: map S rightmost in
        Some (if last indexes 0 =? length data then indexes else set_last indexes (length data))
      end
    end.

(** data[a:b] for non-negative a, b *)
Definition slice {B} (l : list B) (a b : nat) : list B := firstn (b - a) (skipn a l).

(** _get_subsets, jenks.py:164-180 *)
Fixpoint get_subsets {B} (l : list B) (indexes : list nat) : list (list B) :=
  match indexes with
  | a :: ((b :: _) as t) => slice l a b :: get_subsets l t
  | _ => []
  end.

(** _partition_data_for_bucket, jenks.py:183-218 (logging omitted) *)
Definition partition_data_for_bucket (data : list nat) (n : nat) : option (list nat * Q) :=
  match jenks_natural_breaks data n with
  | None => None
  | Some indexes =>
    let subsets := get_subsets data indexes in
    match subsets with [] => None | _ => Some (indexes, total_loss subsets) end
  end.

(** The while loop of _partition_data, jenks.py:251-265: losses for n, n+1, ... ; [fuel] is the
    number of remaining iterations n_unique - n + 1; a ValueError ends the loop. *)
Fixpoint losses_from (data : list nat) (n fuel : nat) : list Q :=
  match fuel with
  | O => []
  | S fuel' =>
    match partition_data_for_bucket data n with
    | None => []
    | Some (_, l) => l :: losses_from data (S n) fuel'
    end
  end.

(** first index i with -(l[i+1]-l[i]) < threshold; jenks.py:272-286 *)
Fixpoint first_below (ls : list Q) (threshold : Q) (i : nat) : option nat :=
  match ls with
  | a :: ((b :: _) as t) =>
    if negb (Qle_bool threshold (a - b)) then Some i else first_below t threshold (S i)
  | _ => None
  end.

(** _partition_data, jenks.py:221-300 *)
Definition partition_data (data : list nat) (n_buckets : option nat) (threshold : Q)
  : option (list nat) :=
  match data with
  | [] => Some [0]
  | _ =>
    let n_unique := length (nodup Nat.eq_dec data) in
    if n_unique =? 1 then Some [0; length data]
    else
      match n_buckets with
      | Some nb =>
        let nb := if n_unique <? nb then n_unique else nb in
        option_map fst (partition_data_for_bucket data nb)
      | None =>
        let losses := losses_from data 1 n_unique in
        if length losses <=? 1 then Some [0; length data]
        else
          let nb := match first_below losses threshold 0 with
                    | None => length losses
                    | Some i => i + 1
                    end in
          if nb <? 1 then None else option_map fst (partition_data_for_bucket data nb)
      end
  end.

(** _pad_and_stack_bucket, jenks.py:303-334 *)
Definition bucket_width {B} (bucket : list (list B)) : nat := max_list (map (@length B) bucket).
Definition pad_and_stack_bucket (z : A) (bucket : list (list A)) : list (list A) :=
  map (fun b => b ++ repeat z (bucket_width bucket - length b)) bucket.

(** _bucket_mask, jenks.py:337-365 *)
Definition bucket_mask (bucket : list (list A)) : list (list bool) :=
  map (fun b => repeat true (length b) ++ repeat false (bucket_width bucket - length b)) bucket.

(** Python's stable sorted(..., key=snd), jenks.py:418 *)
Fixpoint insert_by {B} (key : B -> nat) (x : B) (l : list B) : list B :=
  match l with
  | [] => [x]
  | y :: t => if key x <=? key y then x :: l else y :: insert_by key x t
  end.
Definition sort_by {B} (key : B -> nat) (l : list B) : list B :=
  fold_right (insert_by key) [] l.

(** sum(arr[i].size for arr in arrays), jenks.py:415-417 *)
Definition event_size (arrays : list aseq) (i : nat) : nat :=
  sum_list (map (fun s => row_size s * length (nth i (items s) [])) arrays).

(** pad_and_stack, jenks.py:368-443.  Result: per sequence the list of padded buckets, and the
    list of masks. *)
Definition pad_and_stack (arrays : list aseq) (n_buckets : option nat) (threshold : Q)
  : option (list (list (list (list A))) * list (list (list bool))) :=
  if negb (Qle_bool 0 threshold && Qle_bool threshold 100) then None
  else
    match arrays with
    | [] => None
    | first :: _ =>
      let n := length (items first) in
      if negb (forallb (fun s => n =? length (items s)) arrays) then None
      else if n =? 0 then Some (map (fun _ => []) arrays, [])
      else
        let index_and_size := map (fun i => (i, event_size arrays i)) (seq 0 n) in
        let index_and_size := sort_by snd index_and_size in
        let sizes := map snd index_and_size in
        let shuffle_indices := map fst index_and_size in
        let shuffled s := map (fun i => nth i (items s) []) shuffle_indices in
        match partition_data sizes n_buckets threshold with
        | None => None
        | Some subset_indices =>
          Some (map (fun s => map (pad_and_stack_bucket (zero_row s))
                                  (get_subsets (shuffled s) subset_indices)) arrays,
                map bucket_mask (get_subsets (shuffled first) subset_indices))
        end
    end.

End Jenks.

Arguments mkseq {A}.
Arguments row_size {A}.
Arguments zero_row {A}.
Arguments items {A}.
Arguments event_size {A}.
Arguments pad_and_stack {A}.
Arguments pad_and_stack_bucket {A}.
Arguments bucket_mask {A}.
