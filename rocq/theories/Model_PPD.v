(** Model of the posterior predictive distribution files: gwkanal/utils/ppd.py and ppd_ranges of
    gwkanal/utils/common.py.  Numbers are real; batching (batch_size) has no effect on the values
    and is left out. *)
From Coq Require Import String Reals List Bool Arith.
From Verif Require Import Model_X Model_Guru Model_Mass.
Import ListNotations.
Open Scope nat_scope.

(** (start, end, num_points) *)
Definition domain := (R * R * nat)%type.
Definition d_points (d : domain) : nat := snd d.
Definition d_grid (d : domain) : list R := linspace (fst (fst d)) (snd (fst d)) (snd d).

(** an array: its shape and its entries by multi-index *)
Record tensor := mktensor { t_shape : list nat; t_at : list nat -> R }.

Definition size (shape : list nat) : nat := fold_right Nat.mul 1 shape.
(** position of a multi-index in row-major order *)
Fixpoint ravel (shape idx : list nat) : nat :=
  match shape, idx with
  | _ :: ns, i :: is => i * size ns + ravel ns is
  | _, _ => 0
  end.
(** flat.reshape(shape) *)
Definition reshape (flat : list R) (shape : list nat) : tensor :=
  mktensor shape (fun idx => nth (ravel shape idx) flat 0%R).
(** np.moveaxis(t, 0, -1) *)
Definition moveaxis_first_last (t : tensor) : tensor :=
  match t_shape t with
  | [] => t
  | n :: ns => mktensor (ns ++ [n]) (fun idx => t_at t (last idx 0 :: removelast idx))
  end.
(** np.mean(t, axis=-1) *)
Definition mean_last (t : tensor) : tensor :=
  let n := last (t_shape t) 0 in
  mktensor (removelast (t_shape t))
           (fun idx => (fold_right Rplus 0 (map (fun s => t_at t (idx ++ [s])) (seq 0 n)) / INR n)%R).

Definition insert_at {A} (k : nat) (a : A) (l : list A) : list A := firstn k l ++ a :: skipn k l.
Definition remove_at {A} (k : nat) (l : list A) : list A := firstn k l ++ skipn (S k) l.
(** jnp.trapezoid(y=t, x=xs, axis=axis); xs has as many entries as that axis *)
Definition trapezoid_axis (xs : list R) (axis : nat) (t : tensor) : tensor :=
  mktensor (remove_at axis (t_shape t))
           (fun idx => trapezoid xs (map (fun k => t_at t (insert_at axis k idx))
                                         (seq 0 (nth axis (t_shape t) 0)))).

(** the loop of _compute_marginal_probs, ppd.py:124-137; [i] counts the domains, [j] the axes
    already integrated over *)
Fixpoint marginal_loop (axis i j : nat) (domains : list domain) (t : tensor) : tensor :=
  match domains with
  | [] => t
  | d :: ds =>
    if Nat.eqb i axis then marginal_loop axis (S i) j ds t
    else marginal_loop axis (S i) (S j) ds (trapezoid_axis (d_grid d) (i - j) t)
  end.
Definition compute_marginal_probs (t : tensor) (axis : nat) (domains : list domain) : tensor :=
  marginal_loop axis 0 0 domains t.

(** get_all_marginals, ppd.py:140-157 *)
Definition get_all_marginals (t : tensor) (domains : list domain) : list tensor :=
  map (fun axis => compute_marginal_probs t axis domains) (seq 0 (length (t_shape t))).

(** rows of the mesh: meshgrid(indexing="ij"), stacked and flattened, ppd.py:232-238 *)
Fixpoint mesh (axes : list (list R)) : list (list R) :=
  match axes with
  | [] => [[]]
  | a :: rest => flat_map (fun x => map (cons x) (mesh rest)) a
  end.

Record ppd_file := mkppd {
  f_domains : list domain;
  f_headers : list string;
  f_ppd : tensor;
  f_marginals : list (string * tensor) }.

Fixpoint distinct (l : list string) : bool :=
  match l with [] => true | x :: t => negb (existsb (String.eqb x) t) && distinct t end.

(** save_probs, ppd.py:160-198; creating a dataset twice raises *)
Definition save_probs (ppd : tensor) (marginals : list tensor) (domains : list domain)
           (headers : list string) : option ppd_file :=
  if negb (Nat.eqb (length (t_shape ppd)) (length domains)) then None
  else if negb (Nat.eqb (length (t_shape ppd)) (length headers)) then None
  else
    let datasets := combine headers marginals in
    if distinct (map fst datasets) then Some (mkppd domains headers ppd datasets) else None.

Section PPD.
(** exp of the log density of the model at a point, given its parameters *)
Variable density : list (string * R) -> list R -> R.

(** compute_probs, ppd.py:50-95, on one row of samples *)
Definition compute_probs (constants : list (string * R)) (mapping : list (string * nat))
           (points : list (list R)) (params : list R) : list R :=
  map (density (constants ++ map (fun p => (fst p, nth (snd p) params 0%R)) mapping)) points.

(** compute_and_save_ppd, ppd.py:201-259 *)
Definition compute_and_save_ppd (samples : list (list R)) (domains : list domain)
           (headers : list string) (constants : list (string * R)) (mapping : list (string * nat))
  : option ppd_file :=
  let points := mesh (map d_grid domains) in
  let shape := map d_points domains in
  let prob_values := map (compute_probs constants mapping points) samples in
  let flat := List.concat prob_values in
  let prob_values := reshape flat (Nat.div (length flat) (size shape) :: shape) in
  let prob_values := moveaxis_first_last prob_values in
  let ppd_values := mean_last prob_values in
  let marginals := get_all_marginals prob_values domains in
  save_probs ppd_values marginals domains headers.
End PPD.

(** ppd_ranges, gwkanal/utils/common.py:81-111; the ranges have been converted to numbers *)
Definition ppd_ranges (parameters : list string) (ranges : list (string * domain))
  : option (list (option domain)) :=
  fold_left
    (fun acc (p : string * domain) =>
       match acc with
       | None => None
       | Some rs =>
         match index_of parameters (fst p) with
         | None => None
         | Some i => Some (firstn i rs ++ Some (snd p) :: skipn (S i) rs)
         end
       end)
    ranges (Some (map (fun _ => None) parameters)).
