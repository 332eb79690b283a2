(** Property C70: the six-dimensional mass-spin model. *)
From Coq Require Import Reals Lra List Bool.
From Coquelicot Require Import Coquelicot.
From Verif Require Import Model_X Spec_X Spec_Density Model_Mass Model_MultiSpin Proofs_MultiSpin.
Import ListNotations.
Open Scope R_scope.

(** integrating over both spin magnitudes (the supports of all components) and both tilts leaves the
    two-peak mass model with the same mass parameters *)
Theorem C70_mass_marginal : forall a1 a2 beta loc1 loc2 scale1 scale2 d1 d2 l0 l1 m1min m2min mmax mb bpl1 bpl2 n1 n2 validate m q,
  0 < m1min < mb -> mb < mmax -> 0 < m2min < mmax -> 0 < d1 -> 0 < d2 -> 0 <= l0 -> 0 <= l1 -> l0 + l1 <= 1 ->
  0 < scale1 -> 0 < scale2 ->
  List.Forall (fun c => 0 < a1_scale c /\ 0 < a2_scale c /\ 0 < t1_scale c /\ 0 < t2_scale c /\ 0 <= tilt_zeta c <= 1
                        /\ a1_low c < a1_high c /\ a2_low c < a2_high c) [bpl1; bpl2; n1; n2] ->
  m <= mmax -> 0 < q ->
  exists A1 B1 A2 B2,
  (forall c, In c [bpl1; bpl2; n1; n2] -> A1 <= a1_low c /\ a1_high c <= B1 /\ A2 <= a2_low c /\ a2_high c <= B2)
  /\ iterated_integral [(A1, B1); (A2, B2); (-1, 1); (-1, 1)]
    (on4 (fun x1 x2 t1 t2 => wexp (ms_log_prob a1 a2 beta loc1 loc2 scale1 scale2 d1 d2 l0 l1 m1min m2min mmax mb
                                     bpl1 bpl2 n1 n2 validate m q x1 x2 t1 t2)))
    (wexp (b2p_log_prob a1 a2 beta loc1 loc2 scale1 scale2 d1 d2 l0 l1 m1min m2min mmax mb validate m q)).
Proof.
  intros. do 4 eexists. split.
  2:{ apply ms_marginal; eassumption. }
  intros c Hc. match goal with HF : List.Forall _ _ |- _ => pose proof (comps_ok bpl1 bpl2 n1 n2 HF) as K end.
  rewrite Forall_forall in K. specialize (K c Hc). unfold comp_ok in K. tauto.
Qed.
Print Assumptions C70_mass_marginal.

Example C70_nonvacuous : let c := mkspin (1/10) (1/5) 0 1 (1/10) (1/5) 0 1 (1/2) 1 (1/2) 1 (1/2) in
  0 < 5 < 35 /\ 35 < 100 /\ 0 < 3 < 100 /\
  List.Forall (fun c => 0 < a1_scale c /\ 0 < a2_scale c /\ 0 < t1_scale c /\ 0 < t2_scale c /\ 0 <= tilt_zeta c <= 1
                        /\ a1_low c < a1_high c /\ a2_low c < a2_high c) [c; c; c; c].
Proof. cbv zeta. split; [lra|]. split; [lra|]. split; [lra|]. repeat (constructor; [simpl; lra|]). constructor. Qed.
