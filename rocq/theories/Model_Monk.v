(** Model of gwkanal/core/monk.py: the reading of means and covariances of events and the posterior
    of the Monk analysis.  The likelihood is in Model_MonteCarlo.v and Model_MVN.v, the
    classification of the parameters in Model_Guru.v.

    An HDF5 file is the list of its groups in the order in which h5py iterates (by name); a group
    is the dictionary of its arrays.  That every key starting with "event_" is a group and not an
    array, and that the arrays hold numbers, is assumed. *)
From Coq Require Import String Ascii Reals List Bool Arith.
From mathcomp Require Import ssreflect ssrfun ssrbool eqtype ssrnat fintype bigop ssralg matrix.
From Verif Require Import Model_X Model_Guru Model_Population Model_MonteCarlo Model_RealRing Model_MVN.
Import ListNotations.
Open Scope string_scope.
Open Scope list_scope.

(** an array: its shape and its entries in C order *)
Record array := mkarray { shape : list nat; entries : list R }.
Definition group := list (string * array).

Definition shape_eqb (a b : list nat) : bool := if list_eq_dec Nat.eq_dec a b then true else false.

(** the body of the loop, monk.py:52-72; None: an error.  [:] of an array without axes and
    mean.shape[0] of it fail *)
Definition read_event (g : group) : option (array * array) :=
  match dget g "mean" with
  | None => None
  | Some mean =>
    match dget g "cov" with
    | None => None
    | Some cov =>
      match shape mean with
      | [] => None
      | n_dim :: _ => if shape_eqb (shape cov) [n_dim; n_dim] then Some (mean, cov) else None
      end
    end
  end.
(** _read_mean_covariances, monk.py:27-74 *)
Definition read_mean_covariances (filename : string) (f : list (string * group)) : option (list array * list array) :=
  if ends_with filename ".hdf5" || ends_with filename ".h5" then
    match map_opt (fun p => read_event (snd p)) (filter (fun p => String.prefix "event_" (fst p)) f) with
    | None => None
    | Some l => Some (map fst l, map snd l)
    end
  else None.

(** jnp.stack, np.stack, axis=0: needs at least one array, all of one shape *)
Definition stack (l : list array) : option (list array) :=
  match l with
  | [] => None
  | a :: t => if forallb (fun b => shape_eqb (shape b) (shape a)) t then Some l else None
  end.

Section Run.
Context {n : nat}.
(** an array of shape (n,) and one of shape (n, n) *)
Definition as_vec (a : array) : 'cV[R]_n := (\col_i List.nth (nat_of_ord i) (entries a) R0)%R.
Definition as_mat (a : array) : 'M[R]_n := (\matrix_(i, j) List.nth (nat_of_ord i * n + nat_of_ord j)%nat (entries a) R0)%R.

(** jnp.linalg.cholesky *)
Variable cholesky : 'M[R]_n -> 'M[R]_n.
(** Monk.run, monk.py:149-163: mean_stack and scale_tril_stack *)
Definition monk_data (filename : string) (f : list (string * group)) : option (list 'cV[R]_n * list 'M[R]_n) :=
  match read_mean_covariances filename f with
  | None => None
  | Some (means, covs) =>
    match stack means, stack covs with
    | Some means, Some covs => Some (map as_vec means, map cholesky (map as_mat covs))
    | _, _ => None
    end
  end.

(** the model built from a parameter vector: log density, gradient, Hessian *)
Variable log_prob : list X -> 'cV[R]_n -> X.
Variable grad : list X -> 'cV[R]_n -> 'cV[R]_n.
Variable hess : list X -> 'cV[R]_n -> 'M[R]_n.
Variable psd : 'M[R]_n -> bool.
Variable chol_inv : 'M[R]_n -> 'M[R]_n.
(** keys, jrd.split and jrd.normal *)
Variable K : Type.
Variable split : K -> K * K.
Variable split_n : K -> nat -> list K.
Variable normal : K -> list 'cV[R]_n.
Variables (minimum_mc_error T_obs : R) (n_max_steps : nat).
Variables (prior_lp expected_rates : list X -> X).

(** log weights of event [i] for the samples of a subkey *)
Definition monk_weights (data : list 'cV[R]_n * list 'M[R]_n) (x : list X) (i : nat) (subkey : K) : list X :=
  event_log_weights (hess x) (grad x) psd chol_inv (log_prob x) K normal
    (List.nth i (fst data) 0%R) (List.nth i (snd data) 0%R) subkey.
(** Monk.run, monk.py:165-205: the log posterior handed to the sampler *)
Definition monk_log_posterior (key : K) (filename : string) (f : list (string * group)) (x : list X) : option X :=
  match monk_data filename f with
  | None => None
  | Some data =>
    let n_events := List.length (fst data) in
    Some (analytical_likelihood split minimum_mc_error n_max_steps T_obs prior_lp expected_rates
            (monk_weights data) (split_n key n_events) x)
  end.
End Run.
