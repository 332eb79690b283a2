(** Generating synthetic populations and their errors (src/gwkanal/core/population.py). *)
From Coq Require Import String Ascii List Arith Bool Reals.
From Verif Require Import Model_X Model_Key Model_Guru.
Import ListNotations.
Open Scope nat_scope.

(** ** ensure_dat_extension (lines 28-54): None is ValueError *)
Definition ends_with (s suffix : string) : bool :=
  (String.length suffix <=? String.length s)
  && String.eqb (substring (String.length s - String.length suffix) (String.length suffix) s) suffix.
Fixpoint has_char (c : ascii) (s : string) : bool :=
  match s with EmptyString => false | String a s' => Ascii.eqb a c || has_char c s' end.
Definition ensure_dat_extension (filename : string) : option string :=
  if ends_with filename ".dat" then Some filename
  else if negb (has_char "." filename) then Some (filename ++ ".dat")%string
  else None.

(** ** tables of samples *)
Notation row := (list X).
Definition cell (i : nat) (r : row) : X := nth i r NaN.
(** r.at[i].set(v) *)
Fixpoint set_cell (i : nat) (v : X) (r : row) : row :=
  match r, i with
  | [], _ => []
  | _ :: t, 0 => v :: t
  | x :: t, S i => x :: set_cell i v t
  end.
(** jnp.minimum *)
Definition xmin (a b : X) : X := xopp (xmax (xopp a) (xopp b)).

(** ** _generate_population (lines 153-204) *)
(** lines 163-180: order the two masses of a row *)
Definition order_masses (i1 i2 : nat) (r : row) : row :=
  let m1 := cell i1 r in let m2 := cell i2 r in
  set_cell i2 (xmin m1 m2) (set_cell i1 (xmax m1 m2) r).
(** jax.nn.softmax *)
Definition softmax (l : list X) : list X :=
  let m := xmaximum l in
  let e := map (fun x => xexp (xsub x m)) l in
  map (fun x => xdiv x (xsum e)) e.
(** jnp indexing clamps out-of-range positions *)
Definition take {A} (d : A) (l : list A) (i : nat) : A := nth (Nat.min i (length l - 1)) l d.

Section Population.
(** model.sample_with_intermediates(key, (size,)): rows and component indices *)
Variable sample : rng -> nat -> list row * list nat.
(** log_selection_fn *)
Variable log_selection : option (list row -> list X).
(** jax.random.choice(key, arange(n), p=p, shape=(count,)) *)
Variable choice : rng -> list X -> nat -> list nat.

Definition generate_population (parameters : list string) (size : nat) (key : rng)
  : option (list row * list nat * list row * list nat) :=
  let old_size := size in
  let size := match log_selection with Some _ => size + 10000 | None => size end in
  let (population, indices) := sample key size in
  match index_of parameters "mass_1_source", index_of parameters "mass_2_source" with
  | Some i1, Some i2 =>
      let population := map (order_masses i1 i2) population in
      let raw_population := population in
      let raw_indices := indices in
      match log_selection with
      | None => Some (raw_population, raw_indices, population, indices)
      | Some f =>
          let key := snd (split2 key) in
          let weights := softmax (map nan_to_neginf (f population)) in
          let key := snd (split2 key) in
          let index := choice key weights old_size in
          Some (raw_population, raw_indices, map (take [] population) index, map (take 0 indices) index)
      end
  | _, _ => None
  end.
End Population.

(** ** add_mean_and_covariance (lines 57-89) *)
Definition nat_x (n : nat) : X := Fin (INR n).
(** np.mean(data, axis=0) for column [j] *)
Definition column (j : nat) (data : list row) : list X := map (cell j) data.
Definition col_mean (data : list row) (j : nat) : X := xdiv (xsum (column j data)) (nat_x (length data)).
(** np.cov(data, rowvar=False) for columns [i] and [j]: one less than the number of rows in the denominator *)
Definition col_cov (data : list row) (i j : nat) : X :=
  xdiv (xsum (map (fun r => xmul (xsub (cell i r) (col_mean data i)) (xsub (cell j r) (col_mean data j))) data))
       (nat_x (length data - 1)).
(** np.cov returns a scalar for a single column *)
Inductive cov_result : Type := Scalar (x : X) | Matrix (m : nat -> nat -> X).
Definition cov_matrix (idx : list nat) (data : list row) : nat -> nat -> X :=
  fun a b => col_cov data (nth a idx 0) (nth b idx 0).
Definition any_nan (n : nat) (m : nat -> nat -> X) : bool :=
  existsb (fun a => existsb (fun b => isnan (m a b)) (seq 0 n)) (seq 0 n).
(** lines 77-79: copy a tile into the full matrix *)
Fixpoint put_row (covs : nat -> nat -> X) (a : nat) (row_index : nat) (idx : list nat) (b : nat) (tile : nat -> nat -> X)
  : nat -> nat -> X :=
  match idx with
  | [] => covs
  | j :: rest => put_row (fun x y => if (x =? row_index) && (y =? j) then tile a b else covs x y) a row_index rest (S b) tile
  end.
Fixpoint put_tile (covs : nat -> nat -> X) (rows : list nat) (a : nat) (idx : list nat) (tile : nat -> nat -> X)
  : nat -> nat -> X :=
  match rows with
  | [] => covs
  | i :: rest => put_tile (put_row covs a i idx 0 tile) rest (S a) idx tile
  end.
Fixpoint tiles (parameters : list string) (data : list row) (ts : list (list string)) (covs : nat -> nat -> X)
  : option (nat -> nat -> X) :=
  match ts with
  | [] => Some covs
  | t :: rest =>
      match map_opt (index_of parameters) t with
      | None => None
      | Some idx =>
          let tile := cov_matrix idx data in
          if any_nan (length idx) tile then None
          else tiles parameters data rest (put_tile covs idx 0 idx tile)
      end
  end.
Definition add_mean_and_covariance (noisy_data : list row) (parameters : list string) (tile_covariance : option (list (list string)))
  : option (list X * cov_result) :=
  let n := length parameters in
  let mean := map (col_mean noisy_data) (seq 0 n) in
  if existsb isnan mean then None
  else match tile_covariance with
       | Some ts =>
           match tiles parameters noisy_data ts (fun _ _ => Fin 0) with
           | None => None
           | Some covs => Some (mean, Matrix covs)
           end
       | None =>
           let covs := cov_matrix (seq 0 n) noisy_data in
           if any_nan n covs then None
           else Some (mean, if n =? 1 then Scalar (covs 0 0) else Matrix covs)
       end.

(** ** _add_error (lines 281-357) *)
Notation err_fn := (list X -> nat -> rng -> list (list X)).
(** noisy_data[:, head] = out (line 330) *)
Fixpoint set_cells (head : list nat) (vals : list X) (r : row) : row :=
  match head, vals with
  | h :: hs, v :: vs => set_cells hs vs (set_cell h v r)
  | _, _ => r
  end.
Fixpoint map2 {A B C} (f : A -> B -> C) (la : list A) (lb : list B) : list C :=
  match la, lb with a :: la, b :: lb => f a b :: map2 f la lb | _, _ => [] end.
Section Errors.
Variable parameters : list string.
Variable error_size : nat.
Variable tile_covariance : option (list (list string)).
(** error_magazine.registry.items() *)
Variable registry : list (list string * err_fn).
(** the contents of np.empty for each event (line 322) *)
Variable garbage : nat -> list row.

(** lines 290-297 *)
Definition heads : option (list (list nat * err_fn)) :=
  map_opt (fun he => option_map (fun h => (h, snd he)) (map_opt (index_of parameters) (fst he))) registry.

(** one event: the keys used, in order, and the noisy rows (lines 321-333) *)
Fixpoint fill (hs : list (list nat * err_fn)) (n_heads index i : nat) (data : row) (keys : list rng) (noisy : list row)
  : list rng * list row :=
  match hs with
  | [] => ([], noisy)
  | (head, f) :: rest =>
      let key_idx := index * n_heads + i in
      let k := take (Seed 0) keys key_idx in
      let out := f (map (fun j => cell j data) head) error_size k in
      let (ks, r) := fill rest n_heads index (S i) data keys (map2 (fun r o => set_cells head o r) noisy out) in
      (k :: ks, r)
  end.
Record event_result := Event { used_keys : list rng; posterior : option (list row); moments : option (list X * cov_result) }.
Fixpoint events (hs : list (list nat * err_fn)) (keys : list rng) (index : nat) (data_inj : list row) : option (list event_result) :=
  match data_inj with
  | [] => Some []
  | data :: rest =>
      let (ks, noisy) := fill hs (length hs) index 0 data keys (garbage index) in
      let kept := filter (fun r => negb (existsb isnan r)) noisy in
      if length kept <? 1
      then option_map (cons (Event ks None None)) (events hs keys (S index) rest)
      else match add_mean_and_covariance kept parameters tile_covariance with
           | None => None
           | Some m => option_map (cons (Event ks (Some kept) (Some m))) (events hs keys (S index) rest)
           end
  end.
Definition add_error (key : rng) (data_inj : list row) : option (list event_result) :=
  match heads with
  | None => None
  | Some hs => events hs (split_n key (length data_inj * (length hs + 1))) 0 data_inj
  end.
End Errors.

(** ** random keys of produce (lines 206-223, 359-377) *)
(** keys of the Poisson draw, of the population of each realization, and of the errors of each realization *)
Definition poisson_key (key : rng) : rng := fst (split2 key).
Definition population_keys (num_realizations : nat) (key : rng) : list rng := split_n (snd (split2 key)) num_realizations.
Definition error_keys (num_realizations : nat) (key : rng) : list rng := split_n key num_realizations.
