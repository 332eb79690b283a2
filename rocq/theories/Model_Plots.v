(** The scripts that read saved samples and plot them
    (/repo/src/gwkokab_scripts), together with the calls that write those
    samples.

    A text file is the list of its lines, a line is a string without its end
    of line.  [num] is the type of the numbers stored; [fmt] renders a number
    (numpy's default "%.18e") and [parse] reads one; they are arguments of
    every function that needs them.  pandas
    and numpy are modelled by the functions [loadtxt], [read_csv] and
    [read_csv_ws] below, only for the options the scripts use. *)
From Coq Require Import String Ascii List Arith Bool Reals.
From Verif Require Import Model_Guru.
Import ListNotations.
Open Scope nat_scope.

(** ** Text *)

Definition blank : ascii := " "%char.
Definition hash : ascii := "#"%char.

(** Splitting a line at every blank, keeping empty fields
    ([pandas.read_csv(delimiter=" ")]). *)
Fixpoint split_on (c : ascii) (s : string) : list string :=
  match s with
  | EmptyString => [""%string]
  | String a t =>
      if Ascii.eqb a c then ""%string :: split_on c t
      else match split_on c t with
           | [] => [String a ""%string]
           | w :: r => String a w :: r
           end
  end.

(** [str.split()]: fields separated by runs of blanks, none of them empty.
    Tabs and other white space do not occur in the files concerned. *)
Definition split_ws (s : string) : list string :=
  filter (fun w => negb (String.eqb w ""%string)) (split_on blank s).

(** The part of a line before the first [#]
    ([numpy.loadtxt], [pandas.read_csv(comment="#")]). *)
Fixpoint before_hash (s : string) : string :=
  match s with
  | EmptyString => EmptyString
  | String a t => if Ascii.eqb a hash then EmptyString else String a (before_hash t)
  end.

(** [str.lstrip("#")] *)
Fixpoint lstrip_hash (s : string) : string :=
  match s with
  | EmptyString => EmptyString
  | String a t => if Ascii.eqb a hash then lstrip_hash t else s
  end.

(** ** Writing *)

Section Files.
Variable num : Type.
Variable fmt : num -> string.
Variable parse : string -> option num.

(** numpy.savetxt(path, rows, header=" ".join(labels), comments=comments):
    one line for the header, one for each row.
    - comments "# " (the default): flowMC_based.py 706-710, 749-758, 799-803;
      numpyro_based.py 37-41; sage.py 280-286;
    - comments "#": numpyro_based.py 49-55;
    - comments "": population.py 250-255, 268-273, 335-340. *)
Definition savetxt (comments : string) (labels : list string) (rows : list (list num)) : list string :=
  (comments ++ String.concat " " labels)%string
  :: map (fun r => String.concat " " (map fmt r)) rows.

(** numpy.savetxt(f, rows) on a file opened for appending
    (numpyro_based.py 43-44): no header. *)
Definition appendtxt (file : list string) (rows : list (list num)) : list string :=
  (file ++ map (fun r => String.concat " " (map fmt r)) rows)%list.

(** ** Reading *)

(** numpy.loadtxt(path, skiprows=skip): comments are removed, empty lines are
    skipped, every other field has to be a number.  numpy also wants all rows
    to have the same length and drops dimensions of length one; neither is
    modelled. *)
Definition loadtxt (skip : nat) (file : list string) : option (list (list num)) :=
  map_opt (map_opt parse)
    (filter (fun w => match w with [] => false | _ => true end)
       (map (fun l => split_ws (before_hash l)) (skipn skip file))).

(** A pandas table: the names of its columns and its rows; a cell is [None]
    when it is missing or not a number. *)
Record frame := Frame { columns : list string; body : list (list (option num)) }.

(** The cells of a row of [width] columns: when the first row has more fields
    than there are names, the leading fields of every row form the index; a
    shorter row is filled with missing values. *)
Definition fit (width extra : nat) (cells : list (option num)) : list (option num) :=
  firstn width (skipn extra cells ++ repeat None width).

(** pandas.read_csv(path, delimiter=" ", skiprows=skip): the first line that
    is not skipped holds the names of the columns (made distinct by pandas,
    which is not modelled), whatever it contains.  An empty file is an error.
    (A later row longer than the first is an error too; the files concerned
    have none.) *)
Definition read_csv (skip : nat) (file : list string) : option frame :=
  match skipn skip file with
  | [] => None
  | h :: rest =>
      let names := split_on blank h in
      let rows := map (fun l => map parse (split_on blank l)) rest in
      let extra := match rows with [] => 0 | r :: _ => length r - length names end in
      Some (Frame names (map (fit (length names) extra) rows))
  end.

(** pandas.read_csv(path, sep=r"\s+", comment="#", header=None)
    (hist_overplot.py 140): every line that is not empty after removing the
    comment is a row.  Without such a line pandas raises EmptyDataError. *)
Definition read_csv_ws (file : list string) : option (list (list (option num))) :=
  match filter (fun w => match w with [] => false | _ => true end)
          (map (fun l => split_ws (before_hash l)) file) with
  | [] => None
  | rows => Some (map (map parse) rows)
  end.

(** f.readline().lstrip("#").strip().split()
    (hist_overplot.py 137-138, corner_overplot.py 161-162, 178-179) *)
Definition read_header (file : list string) : list string :=
  match file with [] => [] | l :: _ => split_ws (lstrip_hash l) end.

(** data[name].to_numpy() *)
Definition column (f : frame) (name : string) : option (list (option num)) :=
  match index_of (columns f) name with
  | None => None
  | Some k => Some (map (fun r => nth k r None) (body f))
  end.

(** *** The scripts *)

(** r_hat_plot.py 106, ess_evolution_plot.py 124, ess_plot.py 94, 104 *)
Definition load_chain (file : list string) : option (list (list num)) := loadtxt 0 file.

(** sage.py 230, population.py 305 *)
Definition load_after_header (file : list string) : option (list (list num)) := loadtxt 1 file.

(** chain_plot.py 132, 144, 183; corner_plot.py 145; corner_overplot.py 177:
    [pd.read_csv(file, delimiter=" ", skiprows=1).to_numpy()] *)
Definition load_corner (file : list string) : option (list (list (option num))) :=
  option_map body (read_csv 1 file).

(** scatter2d.py 146-148, joint_plot.py 118-120, batch_scatter2d.py 141-143,
    scatter3d.py 148-151, batch_scatter3d.py 177-180:
    [pd.read_csv(file, delimiter=" ")] and then a column by its name;
    inference_io/_discrete.py 150 reads events this way too. *)
Definition load_column (file : list string) (name : string) : option (list (option num)) :=
  match read_csv 0 file with None => None | Some f => column f name end.

(** hist_overplot.py 137-147: the names are those of the first line;
    assigning them fails unless there is one for each column. *)
Definition load_hist (file : list string) (name : string) : option (list (option num)) :=
  match read_csv_ws file with
  | None => None
  | Some rows =>
      let names := read_header file in
      if forallb (fun r => length r =? length names) rows
      then column (Frame names rows) name
      else None
  end.

End Files.

Arguments columns {num}. Arguments body {num}. Arguments savetxt {num}.
Arguments appendtxt {num}. Arguments loadtxt {num}. Arguments read_csv {num}.
Arguments read_csv_ws {num}. Arguments column {num}. Arguments load_chain {num}.
Arguments load_after_header {num}. Arguments load_corner {num}.
Arguments load_column {num}. Arguments load_hist {num}. Arguments fit {num}.

(** ** corner_overplot.py 174-186 *)

(** [reordered_indices = [header.index(col) for col in header_i]]; an unknown
    column is a ValueError. *)
Definition reordered_indices (header header_i : list string) : option (list nat) :=
  map_opt (index_of header) header_i.

(** [data_i[:, reordered_indices]] for one row *)
Definition reorder {A} (d : A) (header header_i : list string) (row : list A) : option (list A) :=
  if length header_i =? length header then
    match reordered_indices header header_i with
    | None => None
    | Some ks => Some (map (fun k => nth k row d) ks)
    end
  else None.

(** ** scatter2d.py 153-168 *)

(** np.unique: the distinct labels in increasing order *)
Fixpoint insert_unique (x : nat) (l : list nat) : list nat :=
  match l with
  | [] => [x]
  | y :: t => if x <? y then x :: l else if x =? y then l else y :: insert_unique x t
  end.
Definition unique (l : list nat) : list nat := fold_right insert_unique [] l.

(** The groups drawn: for the i-th distinct label [u], the points whose label
    is [u], drawn in colour [ALL_COLORS[u]] with [legend[i]]; the palette has
    one colour for each distinct label unless one is given.  An index outside
    the palette or outside the legend is an IndexError. *)
Definition palette (override : option nat) (labels : list nat) : nat :=
  match override with Some n => n | None => length (unique labels) end.

Definition mask {A} (labels : list nat) (u : nat) (points : list A) : list A :=
  map snd (filter (fun p => fst p =? u) (combine labels points)).

Record group A := Group { g_points : list A; g_color : nat; g_legend : option string }.
Arguments Group {A}. Arguments g_points {A}. Arguments g_color {A}. Arguments g_legend {A}.

Definition draw_group {A} (override : option nat) (legend : option (list string))
    (labels : list nat) (points : list A) (iu : nat * nat) : option (group A) :=
  let (i, u) := iu in
  if u <? palette override labels then
    match legend with
    | None => Some (Group (mask labels u points) u None)
    | Some names =>
        match nth_error names i with
        | None => None
        | Some n => Some (Group (mask labels u points) u (Some n))
        end
    end
  else None.

Definition scatter {A} (override : option nat) (legend : option (list string))
    (labels : list nat) (points : list A) : option (list (group A)) :=
  map_opt (draw_group override legend labels points)
    (combine (seq 0 (length (unique labels))) (unique labels)).

(** ** r_hat_plot.py 124-146, ess_evolution_plot.py 142-164 *)

(** np.linspace(n_draws // n_split, n_draws, n_split, dtype=int): the i-th of
    the [n_split] equally spaced points, rounded down (exact arithmetic).  A
    single point is the first one. *)
Definition draw_division (n_draws n_split i : nat) : nat :=
  let start := n_draws / n_split in
  start + i * (n_draws - start) / (n_split - 1).

Definition draw_divisions (n_draws n_split : nat) : list nat :=
  map (draw_division n_draws n_split) (seq 0 n_split).

(** data.sel(draw=slice(first_draw + d)): label-based selection of an xarray
    coordinate 0, 1, ..., both ends included ([first_draw] is 0). *)
Definition sel_draws {A} (d : nat) (chain : list A) : list A := firstn (S d) chain.

(** The points of the plotted curves: [draw_divisions] against the diagnostic
    [diag] of the selected draws of all chains (one value per parameter). *)
Definition evolution {A} (diag : list (list A) -> list R) (n_split : nat)
    (chains : list (list A)) : list (nat * list R) :=
  let n_draws := match chains with [] => 0 | c :: _ => length c end in
  map (fun d => (d, diag (map (sel_draws d) chains))) (draw_divisions n_draws n_split).

(** plt.plot(x, ys, label=labels): a list of labels has to have one entry for
    each column of [ys] and names them in order, else ValueError.  The default
    labels are the names of the chain files. *)
Definition curve_labels (given : option (list string)) (files : list string)
    (n_params : nat) : option (list string) :=
  let labels := match given with Some l => l | None => files end in
  if length labels =? n_params then Some labels else None.

(** ** ess_plot.py 88-127 *)

(** The two columns plotted: both divided by the number of training draws. *)
Definition ess_columns (ess_train ess_prod : list R) (n_train n_prod : nat) : list R * list R :=
  (map (fun e => (e / INR n_train)%R) ess_train,
   map (fun e => (e / INR n_train)%R) ess_prod).
