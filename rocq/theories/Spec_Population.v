(** Vocabulary for the statements about generated populations. *)
From Coq Require Import String List Reals Bool Arith.
From Verif Require Import Model_X Model_Population.
Import ListNotations.
Open Scope R_scope.

(** a table of real numbers as a table of floats *)
Definition of_reals (data : list (list R)) : list row := map (map Fin) data.
Definition total (l : list R) : R := fold_right Rplus 0 l.
(** sample mean and sample covariance of columns *)
Definition sample_mean (data : list (list R)) (j : nat) : R :=
  total (map (fun r => nth j r 0) data) / INR (length data).
Definition sample_cov (data : list (list R)) (i j : nat) : R :=
  total (map (fun r => (nth i r 0 - sample_mean data i) * (nth j r 0 - sample_mean data j)) data) / INR (length data - 1).
(** two parameters belong to one tile *)
Definition in_common_tile (parameters : list string) (ts : list (list string)) (i j : nat) : Prop :=
  exists t, In t ts /\ In (nth i parameters EmptyString) t /\ In (nth j parameters EmptyString) t.
(** a row without undefined entries *)
Definition complete (r : row) : bool := negb (existsb isnan r).
