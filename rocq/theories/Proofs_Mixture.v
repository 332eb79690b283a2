From Coq Require Import Reals Lra List.
From Coquelicot Require Import Coquelicot.
From Verif Require Import Model_X Model_Joint.
Import ListNotations.
Open Scope R_scope.

(** the cdf of the mixture is a primitive of its density when the components' are *)
Theorem mixture_cdf_derive (cs : list (R * (R -> R) * (R -> R))) x :
  List.Forall (fun c => is_derive (snd (fst c)) x (snd c x)) cs ->
  is_derive (mixture_cdf (map fst cs)) x
            (fold_right (fun c acc => exp (fst (fst c)) * snd c x + acc) 0 cs).
Proof.
  induction 1 as [|[[s F] f] cs Hc Hcs IH]; unfold mixture_cdf in *; cbn [map fold_right fst snd] in *.
  - apply @is_derive_const.
  - apply @is_derive_plus; auto. rewrite Rmult_comm.
    evar_last. { apply @is_derive_scal_l. exact Hc. } { unfold scal; simpl; unfold mult; simpl. ring. }
Qed.

