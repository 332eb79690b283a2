(** Vocabulary for the measurement-error properties. *)
From Coq Require Import Reals List.
From Verif Require Import Model_X Model_Key.
Open Scope R_scope.
(** relative width of the chirp-mass error at signal-to-noise ratio 12: at most seven per cent, and
    shrinking with the post-Newtonian velocity at 20 Hz for light systems *)
Definition velocity_20Hz (msun Mc : R) : R := Rpower (PI * (Mc * (20 * msun))) (1/3).
Definition chirp_width (msun Mc : R) : R := Rmin (7/100) (9/20 * (5 * Rmin (velocity_20Hz msun Mc) (1/5)) ^ 7).
(** a value is acceptable if it is not beyond a cut (undefined values are not beyond any) *)
Definition acceptable (cut_low cut_high : option X) (x : X) : Prop :=
  (forall c, cut_low = Some c -> xltb x c = false) /\ (forall c, cut_high = Some c -> xltb c x = false).
(** the keys derived from a key by repeatedly taking its first child *)
Inductive descends (k : rng) : rng -> Prop :=
| d_self : descends k k
| d_first : forall k', descends k k' -> descends k (Child k' 0).
