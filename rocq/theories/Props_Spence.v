(** C145: the dilogarithm of _analytic_spin_prior.py on the non-negative real numbers.  jaxspence z stands for
    spence z = Li2 (1 - z); [dilogarithm] (Spec_ChiEff) fixes Li2 by its value at 0 and its derivative. *)
From Coq Require Import Reals Lra Lia.
From Coquelicot Require Import Coquelicot.
From Verif Require Import Model_Spence Spec_ChiEff Proofs_ChiEff Proofs_Spence.
Open Scope R_scope.

(** PISQ_6 is Li2 1 to 19 decimals *)
Theorem C145_constant Li2 : dilogarithm Li2 -> Rabs (PISQ_6 - Li2 1) <= / 10 ^ 19.
Proof. intros H. rewrite (Li2_1 Li2 H). now apply constant_bound. Qed.
Print Assumptions C145_constant.
Example C145_constant_nonvacuous : Rabs (PISQ_6 - dilog 1) <= / 10 ^ 19.
Proof. apply C145_constant, dilogarithm_exists. Qed.

(** exact at 0 and 1, up to the constant *)
Theorem C145_special Li2 : dilogarithm Li2 -> jaxspence 0 = PISQ_6 /\ jaxspence 1 = Li2 (1 - 1).
Proof.
  intros H. replace (1 - 1) with 0 by ring. rewrite (Li2_0 Li2 H). unfold jaxspence. split.
  - rewrite Rabs_R0. destruct (Rlt_dec 0 (/ 2)); [|lra]. unfold cspence_series0. cbv zeta. destruct (Req_EM_T 0 0); [auto|contradiction].
  - rewrite Rabs_R1. destruct (Rlt_dec 1 (/ 2)); [lra|]. replace (1 - 1) with 0 by ring. rewrite Rabs_R0.
    destruct (Rlt_dec 1 0); [lra|]. unfold cspence_series1. cbv zeta. destruct (Req_EM_T 1 1); [auto|contradiction].
Qed.
Print Assumptions C145_special.
Example C145_special_nonvacuous : jaxspence 1 = dilog (1 - 1).
Proof. now apply C145_special, dilogarithm_exists. Qed.

Lemma jaxspence_middle z : / 2 <= z <= 2 -> jaxspence z = cspence_series1 z.
Proof.
  intros Hz. unfold jaxspence. rewrite Rabs_right by lra. destruct (Rlt_dec z (/ 2)); [lra|].
  destruct (Rlt_dec 1 (Rabs (1 - z))) as [K|]; [|auto]. exfalso. revert K. apply Rle_not_lt. apply Rabs_le. lra.
Qed.

(** the error below one half *)
Theorem C145_below_half Li2 z : dilogarithm Li2 -> 0 <= z < / 2 -> Rabs (jaxspence z - Li2 (1 - z)) <= 2 / 10 ^ 19.
Proof.
  intros H Hz. unfold jaxspence. rewrite (Rabs_right z) by lra. destruct (Rlt_dec z (/ 2)); [|lra]. now apply near_zero.
Qed.
Print Assumptions C145_below_half.
Example C145_below_half_nonvacuous : Rabs (jaxspence (/ 4) - dilog (1 - / 4)) <= 2 / 10 ^ 19.
Proof. apply C145_below_half; [exact dilogarithm_exists|lra]. Qed.

(** between one half and two the error falls like the 502nd power of the distance from 1, divided by the
    quadratic 1 + 4 v + v^2 of v = 1 - z *)
Theorem C145_around_one Li2 z : dilogarithm Li2 -> / 2 <= z <= 2 -> z <> 3 - sqrt 3 ->
  Rabs (jaxspence z - Li2 (1 - z)) <= 26 / 10 ^ 15 * Rabs (1 - z) ^ 502 / Rabs (1 + 4 * (1 - z) + (1 - z) ^ 2).
Proof.
  intros H Hz Hne. rewrite jaxspence_middle by auto. pose proof sqrt3 as H3.
  destruct (near_one Li2 H z Hz) as [B|B].
  - apply Rle_div_r.
    { apply Rabs_pos_lt. rewrite den_factor. apply Rmult_integral_contrapositive_currified; [|lra]. intros K. apply Hne. lra. }
    replace (Rabs (1 - z) ^ 502) with ((1 - z) ^ 2 * Rabs (1 - z) ^ S last).
    { eapply Rle_trans; [exact B|]. right. ring. }
    replace 502%nat with (2 + S last)%nat by (vm_compute; reflexivity). rewrite pow_add. f_equal. symmetry. rewrite RPow_abs. apply Rabs_right, Rle_ge, pow2_ge_0.
  - exfalso. rewrite den_factor in B. apply Rmult_integral in B. destruct B as [B|B]; [apply Hne|]; lra.
Qed.
Print Assumptions C145_around_one.
Example C145_around_one_nonvacuous : Rabs (jaxspence 2 - dilog (1 - 2)) <= 13 / 10 ^ 15.
Proof.
  eapply Rle_trans. { apply C145_around_one; [exact dilogarithm_exists|lra|pose proof sqrt3; lra]. }
  replace (Rabs (1 - 2)) with 1 by (rewrite Rabs_left; lra). rewrite pow1.
  replace (1 + 4 * (1 - 2) + (1 - 2) ^ 2) with (-2) by ring. rewrite Rabs_left by lra. replace (- -2) with 2 by ring. simpl. lra.
Qed.

(** for every non-negative number away from the two places where the quadratic vanishes *)
Theorem C145_error Li2 z : dilogarithm Li2 -> 0 <= z ->
  / 10 ^ 100 <= Rabs (z - (3 - sqrt 3)) -> / 10 ^ 100 <= Rabs (z - (3 + sqrt 3)) ->
  Rabs (jaxspence z - Li2 (1 - z)) <= 4 / 10 ^ 14.
Proof.
  intros H Hz A B. assert (0 < / 10 ^ 19) by (apply Rinv_0_lt_compat, pow_lt; lra).
  destruct (Rlt_dec z (/ 2)) as [C|C].
  { eapply Rle_trans; [apply C145_below_half; auto; lra|]. replace (4 / 10 ^ 14) with (400000 * / 10 ^ 19) by (simpl; field). unfold Rdiv. lra. }
  destruct (Rle_dec z 2) as [D|D].
  { rewrite jaxspence_middle by lra. eapply Rle_trans. { apply (away Li2 H). lra. apply distance_den; auto. lra. }
    replace (4 / 10 ^ 14) with (4000 * / 10 ^ 17) by (simpl; field). replace (35 / 10 ^ 15) with (3500 * / 10 ^ 17) by (simpl; field).
    assert (0 < / 10 ^ 17) by (apply Rinv_0_lt_compat, pow_lt; lra). lra. }
  unfold jaxspence. rewrite (Rabs_right z) by lra. destruct (Rlt_dec z (/ 2)); [lra|].
  destruct (Rlt_dec 1 (Rabs (1 - z))) as [K|K]; [apply far; auto; lra|]. exfalso. apply K. rewrite Rabs_left; lra.
Qed.
Print Assumptions C145_error.
Example C145_error_nonvacuous : Rabs (jaxspence 3 - dilog (1 - 3)) <= 4 / 10 ^ 14.
Proof.
  pose proof sqrt3. assert (/ 10 ^ 100 <= 1). { rewrite <- Rinv_1. apply Rinv_le_contravar. lra. apply pow_R1_Rle. lra. }
  apply C145_error; [exact dilogarithm_exists|lra| |]; [rewrite Rabs_right|rewrite Rabs_left]; lra.
Qed.

(** no bound holds for all of them: the numerator is a truncated series and does not vanish with the quadratic *)
Theorem C145_refuted Li2 : dilogarithm Li2 ->
  ~ exists B, forall z, 0 <= z -> Rabs (jaxspence z - Li2 (1 - z)) <= B.
Proof.
  intros H (B & K).
  assert (HB : forall z, 1 < z < 3 / 2 -> Rabs (Li2 (1 - z)) <= 2).
  { intros z Hz. pose proof (li2_series Li2 H (1 - z) 0) as S. cbn [psum pow] in S.
    assert (Ha : Rabs (1 - z) <= / 2) by (apply Rabs_le; lra). specialize (S ltac:(lra)).
    rewrite Rminus_0_l, Rabs_Ropp, Rmult_1_r in S. eapply Rle_trans; [exact S|]. apply Rle_div_l; lra. }
  destruct (unbounded Li2 H (B + 2)) as (z & Hz & U). specialize (K z ltac:(lra)). specialize (HB z Hz).
  rewrite jaxspence_middle in K by lra. pose proof (Rabs_triang_inv (cspence_series1 z) (Li2 (1 - z))). lra.
Qed.
Print Assumptions C145_refuted.
Example C145_refuted_nonvacuous : ~ exists B, forall z, 0 <= z -> Rabs (jaxspence z - dilog (1 - z)) <= B.
Proof. apply C145_refuted, dilogarithm_exists. Qed.
