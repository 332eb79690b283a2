(** Writing a synthetic catalogue to disk: PopulationFactory of src/gwkanal/core/population.py.

    The disk maps a path to the contents of the file there; directories are not modelled (os.makedirs
    with exist_ok=True succeeds).  np.savetxt and np.loadtxt keep the numbers (18 decimals in
    scientific notation determine a double).  Paths are joined with "/".  An exception is None; what
    was written before it is not described.  Progress bars and log messages are left out. *)
From Coq Require Import Decimal DecimalString ZArith.
From Coq Require Import String Ascii List Arith Bool.
From Verif Require Import Model_X Model_Key Model_Guru Model_NPLMG Model_Population Model_Genie.
Import ListNotations.
Open Scope nat_scope.

Inductive content : Type :=
| Table (header : list string) (rows : list row)
| Labels (labels : list nat)
| Groups (groups : list (string * (list X * cov_result))).
Definition disk := string -> option content.
Definition write (d : disk) (path : string) (c : content) : disk := fun q => if String.eqb q path then Some c else d q.

(** os.path.join of relative names *)
Definition join (a b : string) : string := (a ++ "/" ++ b)%string.
(** s.format(i) for a string with one placeholder *)
Fixpoint format (s : string) (i : nat) : string :=
  match s with
  | String "{" (String "}" s) => (decimal i ++ s)%string
  | String c s => String c (format s i)
  | EmptyString => EmptyString
  end.

(** class attributes, lines 93-99 *)
Definition error_dir := "posteriors"%string.
Definition event_filename_0 := "event_{}"%string.
Definition injection_filename_0 := "injections"%string.
Definition realizations_dir := "realization_{}"%string.
Definition root_dir := "data"%string.
Definition mean_covs_filename := "means_covs.hdf5"%string.
(** lines 150-151 of __init__; the attributes have no extension, so ensure_dat_extension does not fail *)
Definition with_dat (s : string) : string := match ensure_dat_extension s with Some r => r | None => s end.
Definition event_filename := with_dat event_filename_0.
Definition injection_filename := with_dat injection_filename_0.

(** for i in range(n): a loop over the state [S] that an exception ends *)
Fixpoint for_range {S} (f : S -> nat -> option S) (i n : nat) (s : S) : option S :=
  match n with
  | O => Some s
  | Datatypes.S n => match f s i with None => None | Some s => for_range f (Datatypes.S i) n s end
  end.

Section Produce.
Variable sample : rng -> nat -> list row * list nat.
Variable log_selection : option (list row -> list X).
Variable choice : rng -> list X -> nat -> list nat.
(** int(jrd.poisson(key, rate)) and poisson_mean_estimator(model) *)
Variable poisson : rng -> X -> Z.
Variable exp_rate : X.
Variable parameters : list string.
Variables num_realizations error_size : nat.
Variable tile_covariance : option (list (list string)).
Variable registry : list (list string * (list X -> nat -> rng -> list (list X))).
(** np.empty, for each realization and event *)
Variable garbage : nat -> nat -> list row.

(** the body of the loop of _generate_realizations, lines 234-279 *)
Definition write_realization (size : nat) (pop_keys : list rng) (d : disk) (i : nat) : option disk :=
  let realizations_path := join root_dir (format realizations_dir i) in
  match generate_population sample log_selection choice parameters size (nth i pop_keys (Seed 0)) with
  | None => None
  | Some (raw_population, raw_indices, population, indices) =>
      let d := write d (join realizations_path injection_filename) (Table parameters population) in
      let d := write d (join realizations_path "color.dat") (Labels indices) in
      let d := write d (join realizations_path ("raw_" ++ injection_filename)) (Table parameters raw_population) in
      Some (write d (join realizations_path "raw_color.dat") (Labels raw_indices))
  end.
(** _generate_realizations, lines 206-279 *)
Definition generate_realizations (d : disk) (key : rng) : option disk :=
  let (poisson_key, rate_key) := split2 key in
  let size := poisson poisson_key exp_rate in
  if (size <=? 0)%Z then None
  else let pop_keys := split_n rate_key num_realizations in
       for_range (write_realization (Z.to_nat size) pop_keys) 0 num_realizations d.

(** the files of the loop over events, lines 335-347 *)
Fixpoint write_events (output_dir : string) (index : nat) (results : list event_result) (d : disk) : disk :=
  match results with
  | [] => d
  | r :: rest =>
      let d := match posterior r with
               | None => d
               | Some noisy_data => write d (format output_dir index) (Table parameters noisy_data)
               end in
      write_events output_dir (S index) rest d
  end.
(** lines 352-357 *)
Fixpoint moment_groups (i : nat) (results : list event_result) : list (string * (list X * cov_result)) :=
  match results with
  | [] => []
  | r :: rest =>
      match moments r with
      | None => moment_groups (S i) rest
      | Some m => (format "event_{}" i, m) :: moment_groups (S i) rest
      end
  end.
(** _add_error, lines 281-357; the computations are add_error of Model_Population, the reading of the
    injections is reread of Model_Genie *)
Definition add_error_files (keys : list rng) (d : disk) (realization_number : nat) : option disk :=
  let realizations_path := join root_dir (format realizations_dir realization_number) in
  let output_dir := join (join realizations_path error_dir) event_filename in
  match d (join realizations_path injection_filename) with
  | Some (Table _ rows) =>
      match reread (length parameters) rows with
      | None => None
      | Some data_inj =>
          match add_error parameters error_size tile_covariance registry (garbage realization_number)
                  (nth realization_number keys (Seed 0)) data_inj with
          | None => None
          | Some results =>
              let d := write_events output_dir 0 results d in
              Some (write d (join realizations_path mean_covs_filename) (Groups (moment_groups 0 results)))
          end
      end
  | _ => None
  end.

(** produce, lines 359-377 *)
Definition produce (d : disk) (key : rng) : option disk :=
  match generate_realizations d key with
  | None => None
  | Some d => for_range (add_error_files (split_n key num_realizations)) 0 num_realizations d
  end.
End Produce.
