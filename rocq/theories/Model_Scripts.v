(** Model of three scripts: gwkokab_scripts/diag_mass_matrix.py, ppd_plot.py and flowMC_info.py. *)
From Coq Require Import String List Arith Bool ZArith Reals.
From Verif Require Import Model_X Model_Guru Model_Mass Model_PPD Model_Settings.
Import ListNotations.
Open Scope R_scope.

(** ** diag_mass_matrix.py
    Reading the text file and printing the numbers with eight digits are left out. *)
(** np.atleast_2d(np.loadtxt(...)), lines 38-41: loadtxt wants rows of equal length and drops axes of
    length one, and atleast_2d puts a first axis in front of a vector *)
Definition loadtxt_atleast_2d (rows : list (list R)) : option (list (list R)) :=
  match rows with
  | [] => Some [[]]
  | r :: rest =>
    if forallb (fun r' => (length r' =? length r)%nat) rest then
      if (length r =? 1)%nat then Some [List.concat rows] else Some rows
    else None
  end.
Definition column (rows : list (list R)) (j : nat) : list R := map (fun r => nth j r 0) rows.
Definition sum (l : list R) : R := fold_right Rplus 0 l.
(** np.std(l, ddof=1) *)
Definition std_1 (l : list R) : R :=
  let m := sum l / INR (length l) in
  sqrt (sum (map (fun x => (x - m) * (x - m)) l) / (INR (length l) - 1)).
(** lines 43-57: the printed numbers *)
Definition diag_mass_matrix (rows : list (list R)) (eps : R) : option (list X) :=
  match loadtxt_atleast_2d rows with
  | None => None
  | Some samples =>
    if (length samples <? 2)%nat then None
    else
      let sigma := map (fun j => std_1 (column samples j)) (seq 0 (length (hd [] samples))) in
      Some (map (fun s => xdiv (Fin 1) (Fin (s * s + eps))) sigma)
  end.

(** ** ppd_plot.py *)
(** np.quantile(l, q) for 0 <= q <= 1 and a list that is not empty: sort, then interpolate linearly at
    the virtual index (n - 1) q *)
Fixpoint insert (x : R) (l : list R) : list R :=
  match l with [] => [x] | y :: t => if Rle_dec x y then x :: y :: t else y :: insert x t end.
Definition sort (l : list R) : list R := fold_right insert [] l.
Definition quantile (l : list R) (q : R) : R :=
  let sorted := sort l in
  let virtual := (INR (length l) - 1) * q in
  let previous := Z.to_nat (Int_part virtual) in
  let next := Nat.min (S previous) (length l - 1) in
  let gamma := virtual - INR previous in
  let a := nth previous sorted 0 in
  let b := nth next sorted 0 in
  a + (b - a) * gamma.
(** get_quantiles, 229-244: one value for each row of the marginal *)
Definition get_quantiles (t : tensor) (q : R) : list R :=
  map (fun j => quantile (map (fun s => t_at t [j; s]) (seq 0 (nth 1 (t_shape t) 0%nat))) q)
      (seq 0 (nth 0 (t_shape t) 0%nat)).

(** what is drawn into one pair of axes for one file *)
Record panel := mkpanel {
  p_head : string; p_x : list R; p_median : list R; p_ppd : list R;
  p_ninety : list R * list R; p_fifty : list R * list R }.
Fixpoint lookup {A} (name : string) (l : list (string * A)) : option A :=
  match l with [] => None | (k, v) :: t => if String.eqb name k then Some v else lookup name t end.
(** the loop over the headers of one file, lines 294-335 *)
Definition file_panels (f : ppd_file) : option (list panel) :=
  match map_opt (fun head => lookup head (f_marginals f)) (f_headers f) with
  | None => None
  | Some marginals =>
    let marginal_ppds := get_all_marginals (f_ppd f) (f_domains f) in
    map_opt (fun i =>
      match nth_error (f_headers f) i, nth_error marginals i, nth_error marginal_ppds i, nth_error (f_domains f) i with
      | Some head, Some marginal, Some marginal_ppd, Some domain =>
        Some (mkpanel head (d_grid domain) (get_quantiles marginal (1/2))
                (map (fun j => t_at marginal_ppd [j]) (seq 0 (nth 0 (t_shape marginal_ppd) 0%nat)))
                (get_quantiles marginal (5/100), get_quantiles marginal (95/100))
                (get_quantiles marginal (25/100), get_quantiles marginal (75/100)))
      | _, _, _, _ => None
      end) (seq 0 (length (f_headers f)))
  end.
(** the figures, lines 280-374: the axes are made for the headers of the first file, panel i of every
    file is drawn into axes i, and the figure is named after header i of the last file *)
Definition figures (files : list ppd_file) : option (list (string * list panel)) :=
  match files with
  | [] => Some []
  | first :: _ =>
    match map_opt file_panels files with
    | None => None
    | Some panels =>
      let n_axes := length (f_headers first) in
      if forallb (fun ps => (length ps <=? n_axes)%nat) panels then
        map_opt (fun i =>
          match nth_error (f_headers (last files first)) i with
          | Some name => Some (name, flat_map (fun ps => match nth_error ps i with Some p => [p] | None => [] end) panels)
          | None => None
          end) (seq 0 n_axes)
      else None
    end
  end.

(** ** flowMC_info.py
    The numbers of the settings file are integers; the printing is left out. *)
Open Scope Z_scope.
Record info_config := mkinfo {
  i_chains : Z; i_local : Z; i_local_thin : Z; i_global : Z; i_global_thin : Z; i_window : Z; i_max : Z;
  i_train_loops : Z }.
(** lines 315-336 *)
Definition kept_per_chain (c : info_config) : Z :=
  i_local c / Z.max (i_local_thin c) 1 + i_global c / Z.max (i_global_thin c) 1.
Definition kept_total_per_loop (c : info_config) : Z := kept_per_chain c * i_chains c.
Definition history_capacity (c : info_config) : Z := i_window c * i_chains c.
(** math.ceil(a / b) for b > 0 *)
Definition ceil_div (a b : Z) : Z := - (- a / b).
Definition loops_to_fill (c : info_config) : Z :=
  if (0 <? kept_per_chain c) && (0 <? i_window c) then ceil_div (i_window c) (kept_per_chain c) else 0.
Definition first_forget_loop (c : info_config) : Z := if 0 <? loops_to_fill c then loops_to_fill c + 1 else 0.
(** one row of the loop table, lines 431-448 *)
Record info_row := mkrow {
  r_loop : Z; r_collected : Z; r_candidates : Z; r_train : Z; r_saturated : bool; r_forgetting : bool }.
Definition loop_row (c : info_config) (L : Z) : info_row :=
  let total_collected := kept_total_per_loop c * L in
  let candidates := if 0 <? history_capacity c then Z.min total_collected (history_capacity c) else total_collected in
  let n_train := if 0 <? i_max c then Z.min candidates (i_max c) else candidates in
  mkrow L total_collected candidates n_train (L =? loops_to_fill c)
        ((first_forget_loop c <=? L) && (0 <? first_forget_loop c)).
(** lines 417-430 *)
Definition table_limit (c : info_config) (max_loops_table : Z) : Z :=
  if max_loops_table <? 0 then
    if first_forget_loop c =? 0 then i_train_loops c else Z.min (i_train_loops c) (first_forget_loop c + 2)
  else Z.min max_loops_table (i_train_loops c).
Definition loop_table (c : info_config) (max_loops_table : Z) : list info_row :=
  map (fun k => loop_row c (Z.of_nat (S k))) (seq 0 (Z.to_nat (table_limit c max_loops_table))).

(** generate_heuristics, lines 53-105; None stands for the empty dictionary *)
Record heuristics := mkheur {
  h_window : Z; h_loops : Z; h_max : Z; h_capacity : Z; h_batch : Z; h_hidden : list Z; h_layers : Z;
  h_train : Z; h_prod : Z }.
Definition generate_heuristics (n_dims n_chains kept_total : Z) : option heuristics :=
  if n_dims =? 0 then None
  else
    let '(history_loops, n_max_target, hidden_units, n_layers) :=
      if n_dims <=? 15 then (5, 20000, [64; 64], 4)
      else if n_dims <=? 30 then (6, 30000, [128; 128], 6)
      else (8, 40000, [256; 256], 8) in
    let kept := kept_total / Z.max n_chains 1 in
    let history_window := history_loops * kept in
    let candidate_capacity := history_window * n_chains in
    let n_max_suggest := Z.min n_max_target candidate_capacity in
    let batch_size :=
      if 0 <? n_max_suggest then Z.max 1024 (Z.min (n_max_suggest / 16) 10000) else 4096 in
    let training_loops := Z.max (4 * history_loops) 24 in
    let production_loops := Z.max (2 * history_loops) (training_loops / 2) in
    Some (mkheur history_window history_loops n_max_suggest candidate_capacity batch_size hidden_units n_layers
            training_loops production_loops).
(** the settings with the suggestions of display_suggestions (lines 225-266) taken over *)
Definition with_suggestions (cfg : settings) (h : heuristics) : settings := fun name =>
  match lookup name
    [("history_window"%string, JInt (h_window h)); ("n_max_examples"%string, JInt (h_max h));
     ("batch_size"%string, JInt (h_batch h)); ("n_training_loops"%string, JInt (h_train h));
     ("n_production_loops"%string, JInt (h_prod h));
     ("rq_spline_hidden_units"%string, JList (map JInt (h_hidden h))); ("rq_spline_n_layers"%string, JInt (h_layers h))] with
  | Some v => Some v
  | None => cfg name
  end.
