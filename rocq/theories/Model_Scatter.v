(** The scripts scatter3d and batch_scatter3d (gwkokab_scripts): what they draw
    and what they do to the files. *)
From Coq Require Import String List Bool.
From Verif Require Import Model_Plots.
Import ListNotations.
Open Scope string_scope.

Section Scatter.
Variable num : Type.
Variable parse : string -> option num.

(** a figure: the points drawn at one go with the numbers behind their colours, the labels of the
    axes ("" if none is set), the title, the colour bar *)
Record group := Group { points : list (option num * option num * option num); colours : list (option num) }.
Record figure := Figure {
  groups : list group; x_label : string; y_label : string; z_label : string;
  title_shown : option string; bar_shown : bool }.
Inductive content := Text (lines : list string) | Picture (f : figure).
(** the files by their paths; different paths are different files *)
Definition disk := string -> option content.
Definition put (d : disk) (path : string) (c : content) : disk :=
  fun p => if String.eqb p path then Some c else d p.

(** the options of scatter3d.py:18-134 and batch_scatter3d.py:18-143 that matter here;
    [output_first]: --output comes before --data on the command line *)
Record options := Options {
  data : string; output : string; x_name : string; y_name : string; z_name : string;
  title : option string; xlabel : string; ylabel : string; zlabel : string;
  color : option nat; color_bar : bool; output_first : bool }.

Fixpoint zip3 {A B C} (x : list A) (y : list B) (z : list C) : list (A * B * C) :=
  match x, y, z with
  | a :: x, b :: y, c :: z => (a, b, c) :: zip3 x y z
  | _, _, _ => []
  end.
(** scatter3d.py:148-166, batch_scatter3d.py:177-191: the columns by their names, then
    [data[:, args.color]], which raises on a DataFrame, or z *)
Definition one_group (o : options) (file : content) : option group :=
  match file with
  | Picture _ => None
  | Text lines =>
    match load_column parse lines (x_name o), load_column parse lines (y_name o), load_column parse lines (z_name o) with
    | Some x, Some y, Some z =>
      match color o with
      | Some _ => None
      | None => Some (Group (zip3 x y z) z)
      end
    | _, _, _ => None
    end
  end.

(** scatter3d.py: argparse.FileType opens --data for reading and --output for writing, which
    empties it, in the order of the command line (23-35); then the figure is drawn and saved
    (148-188).  The result: the files afterwards, and whether the script came to its end.  A file
    that is no text is taken to be unreadable as a table; a path that cannot be written is left out. *)
Definition draw_and_save (o : options) (d : disk) : disk * bool :=
  match d (data o) with
  | None => (d, false)
  | Some file =>
    match one_group o file with
    | None => (d, false)
    | Some g => (put d (output o) (Picture (Figure [g] (xlabel o) (ylabel o) (zlabel o) (title o) (color_bar o))), true)
    end
  end.
Definition scatter3d (o : options) (d : disk) : disk * bool :=
  let emptied := put d (output o) (Text []) in
  if output_first o then draw_and_save o emptied
  else match d (data o) with
       | None => (d, false)
       | Some _ => draw_and_save o emptied
       end.

(** batch_scatter3d.py: --data-regex is a text; [glob] is what glob.glob(args.data_regex) returns
    after --output was emptied (line 155), [palette] whether the palette can be made for so many
    files (160-162) *)
Variable glob : string -> disk -> list string.
Variable palette : nat -> bool.
Fixpoint all_groups (o : options) (d : disk) (files : list string) : option (list group) :=
  match files with
  | [] => Some []
  | f :: t =>
    match d f with
    | None => None
    | Some file => match one_group o file, all_groups o d t with
                   | Some g, Some gs => Some (g :: gs)
                   | _, _ => None
                   end
    end
  end.
(** 145-211: neither set_zlabel nor colorbar is called; --color-bar only adds a text that appears
    when the mouse is over a point *)
Definition batch_scatter3d (o : options) (d : disk) : disk * bool :=
  let d := put d (output o) (Text []) in
  let file_list := glob (data o) d in
  if palette (length file_list) then
    match all_groups o d file_list with
    | None => (d, false)
    | Some gs => (put d (output o) (Picture (Figure gs (xlabel o) (ylabel o) "" (title o) false)), true)
    end
  else (d, false).
End Scatter.

Arguments Group {num}. Arguments Figure {num}. Arguments Text {num}. Arguments Picture {num}.
Arguments points {num}. Arguments colours {num}. Arguments groups {num}.
Arguments x_label {num}. Arguments y_label {num}. Arguments z_label {num}.
Arguments title_shown {num}. Arguments bar_shown {num}.
Arguments put {num}. Arguments one_group {num}. Arguments draw_and_save {num}. Arguments scatter3d {num}.
Arguments all_groups {num}. Arguments batch_scatter3d {num}.
