(** Vocabulary of the statements about the generators. *)
From Coq Require Import String Reals List Bool Arith.
From Verif Require Import Model_X Model_Joint Model_Guru Model_Config Model_Key Model_Population Model_NPLMG Model_Genie.
Import ListNotations.
Open Scope string_scope.
Open Scope R_scope.

(** the options that exclude each other on the command line *)
Definition exclusive (u : uses) : Prop :=
  u_beta_spin_magnitude u && u_spin_magnitude_mixture u = false
  /\ u_chi_eff_mixture u && u_skew_normal_chi_eff u = false.

(** values that make physical sense *)
Definition between (l h : R) (x : X) : Prop := exists r, x = Fin r /\ l <= r <= h.
Definition on_circle (period : R) (x : X) : Prop := exists r, x = Fin r /\ 0 <= r < period.
(** x >= c, possibly infinite *)
Definition at_least (c : R) (x : X) : Prop := x = PInf \/ exists r, x = Fin r /\ c <= r.
Definition range_table : list (string * (X -> Prop)) :=
  [("a_1", between 0 1); ("a_2", between 0 1);
   ("spin_1x", between (-1) 1); ("spin_2x", between (-1) 1);
   ("spin_1y", between (-1) 1); ("spin_2y", between (-1) 1);
   ("spin_1z", between (-1) 1); ("spin_2z", between (-1) 1);
   ("cos_tilt_1", between (-1) 1); ("cos_tilt_2", between (-1) 1);
   ("phi_1", on_circle (2 * PI)); ("phi_2", on_circle (2 * PI)); ("phi_12", on_circle (2 * PI));
   ("eccentricity", between 0 1); ("mean_anomaly", on_circle (2 * PI)); ("redshift", at_least (1/1000));
   ("ra", on_circle (2 * PI)); ("dec", between (-1) 1); ("detection_time", at_least 0);
   ("cos_iota", between (-1) 1); ("psi", on_circle PI); ("phi_orb", on_circle (2 * PI))].
(** masses, chi_eff and chi_p are not restricted *)
Definition physical (p : string) (x : X) : Prop :=
  match dget range_table p with Some range => range x | None => True end.

(** [f] returns what the error function [g] returns, after some number of rounds *)
Definition implements (size : nat) (f : list X -> nat -> rng -> list (list X)) (g : genie_err) : Prop :=
  forall x k, exists fuel, g x size k fuel = Rows (f x size k).

(** the values that the model file gives to the declared hyper-parameters; null counts as absent *)
Definition file_values (fullmatch : string -> string -> bool) (u : uses) (N_pl N_g : nat) (model_json : config)
  : list (string * option cval) :=
  map (fun p => (fst p, match snd p with CNull => None | v => Some v end))
      (match_all fullmatch (extended_params u N_pl N_g) model_json).
