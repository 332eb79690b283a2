(** C128: the remaining conversions of masses, redshifts and spins. *)
From Coq Require Import Reals Lra Lia List Bool Psatz.
From Verif Require Import Model_X Spec_X Proofs_X Model_Joint Model_Constraints Model_Transform Spec_Transform.
From Verif Require Import Proofs_Transform Proofs_Spins.
Open Scope R_scope.

(** detector-frame and source-frame masses *)
Theorem C128_frames : forall m z, -1 < z ->
  m_source_z_to_m_det (Fin m) (Fin z) = Fin (m * (1 + z))
  /\ m_det_z_to_m_source (Fin m) (Fin z) = Fin (m / (1 + z))
  /\ m_det_z_to_m_source (m_source_z_to_m_det (Fin m) (Fin z)) (Fin z) = Fin m
  /\ m_source_z_to_m_det (m_det_z_to_m_source (Fin m) (Fin z)) (Fin z) = Fin m.
Proof.
  intros m z Hz. assert (E : forall a, m_det_z_to_m_source (Fin a) (Fin z) = Fin (a / (1 + z))).
  { intros a. unfold m_det_z_to_m_source. rewrite xeqb_ne by lra. cbn [xadd]. apply xdiv_fin'. lra. }
  assert (E' : forall a, m_source_z_to_m_det (Fin a) (Fin z) = Fin (a * (1 + z))) by reflexivity.
  rewrite !E, !E', !E. repeat split; f_equal; field; lra.
Qed.
Print Assumptions C128_frames.

(** the reduced mass *)
Theorem C128_reduced_mass : forall m1 m2, 0 < m1 -> 0 < m2 ->
  exists mu eta, reduced_mass (Fin m1) (Fin m2) = Fin mu /\ symmetric_mass_ratio (Fin m1) (Fin m2) = Fin eta
    /\ / mu = / m1 + / m2 /\ mu = eta * (m1 + m2) /\ 0 < mu < Rmin m1 m2.
Proof.
  intros a b Ha Hb. assert (E : reduced_mass (Fin a) (Fin b) = Fin (a * b / (a + b))).
  { unfold reduced_mass, total_mass, m1_times_m2. cbn [xadd xmul]. rewrite xeqb_ne by lra. apply xdiv_fin'. lra. }
  rewrite E, eta_fin by lra. do 2 eexists. do 2 (split; [reflexivity|]). split; [field; lra|]. split; [field; lra|].
  split; [apply Rdiv_lt_0_compat; nra|]. apply Rmin_glb_lt; apply (Rmult_lt_reg_r (a + b)); try lra;
    (replace (a * b / (a + b) * (a + b)) with (a * b) by (field; lra)); nra.
Qed.
Print Assumptions C128_reduced_mass.

(** the difference ratio and the symmetric mass ratio determine each other *)
Theorem C128_difference_ratio : forall m1 m2, 0 < m2 <= m1 ->
  exists d, delta_m (Fin m1) (Fin m2) = Fin d /\ d * (m1 + m2) = m1 - m2 /\ 0 <= d < 1
    /\ delta_m_to_symmetric_mass_ratio (Fin d) = symmetric_mass_ratio (Fin m1) (Fin m2)
    /\ symmetric_mass_ratio_to_delta_m (symmetric_mass_ratio (Fin m1) (Fin m2)) = Fin d.
Proof.
  intros a b [Hb Hab]. exists ((a - b) / (a + b)).
  assert (R : 0 <= (a - b) / (a + b) < 1).
  { split; [apply Rmult_le_pos; [lra|left; apply Rinv_0_lt_compat; lra]|].
    apply (Rmult_lt_reg_r (a + b)); [lra|]. replace ((a - b) / (a + b) * (a + b)) with (a - b) by (field; lra). lra. }
  split.
  { unfold delta_m, total_mass, xsub. cbn [xadd xopp]. rewrite xeqb_ne by lra. rewrite xdiv_fin' by lra. f_equal. }
  split; [field; lra|]. split; [exact R|]. rewrite eta_fin by lra. split.
  - unfold delta_m_to_symmetric_mass_ratio, xsub. cbn [xmul xopp xadd]. f_equal. field. lra.
  - unfold symmetric_mass_ratio_to_delta_m, xsub. cbn [xmul xopp xadd].
    replace (1 + - (a * b / ((a + b) * (a + b)) * 4)) with (((a - b) / (a + b)) * ((a - b) / (a + b))) by (field; lra).
    rewrite xsqrt_fin by (apply Rle_0_sqr). f_equal. apply sqrt_square. lra.
Qed.
Print Assumptions C128_difference_ratio.

Theorem C128_difference_ratio_back : forall eta, 0 <= eta <= 1/4 ->
  exists d, symmetric_mass_ratio_to_delta_m (Fin eta) = Fin d /\ 0 <= d <= 1
    /\ delta_m_to_symmetric_mass_ratio (Fin d) = Fin eta.
Proof.
  intros e He. exists (sqrt (1 - 4 * e)). unfold symmetric_mass_ratio_to_delta_m, delta_m_to_symmetric_mass_ratio, xsub.
  cbn [xmul xopp xadd]. replace (1 + - (e * 4)) with (1 - 4 * e) by ring. rewrite xsqrt_fin by lra. cbn [xmul xopp xadd]. split; [reflexivity|].
  split.
  - split; [apply sqrt_pos|]. apply Rle_trans with (sqrt 1); [apply sqrt_le_1_alt; lra|rewrite sqrt_1; lra].
  - f_equal. rewrite sqrt_sqrt by lra. field.
Qed.
Print Assumptions C128_difference_ratio_back.

(** masses from one mass and the ratio *)
Theorem C128_mass_from_ratio : forall m1 m2, 0 < m1 -> 0 < m2 ->
  m1_q_to_m2 (Fin m1) (mass_ratio (Fin m1) (Fin m2)) = Fin m2
  /\ m2_q_to_m1 (Fin m2) (mass_ratio (Fin m1) (Fin m2)) = Fin m1.
Proof.
  intros a b Ha Hb. rewrite mass_ratio_fin by lra. assert (b / a <> 0) by (apply Rgt_not_eq; now apply Rdiv_lt_0_compat).
  unfold m1_q_to_m2, m2_q_to_m1. cbn [xmul]. rewrite xeqb_ne, xdiv_fin' by auto. split; f_equal; field; lra.
Qed.
Print Assumptions C128_mass_from_ratio.

(** the spin difference from magnitudes and tilts *)
Theorem C128_spin_difference : forall m1 m2 a1 a2 c1 c2,
  0 < m1 -> 0 < m2 -> 0 <= a1 <= 1 -> 0 <= a2 <= 1 -> -1 <= c1 <= 1 -> -1 <= c2 <= 1 ->
  exists e, chiminus_tilts (Fin m1) (Fin m2) (Fin a1) (Fin a2) (Fin c1) (Fin c2) = Fin e
    /\ e * (m1 + m2) = m1 * (a1 * c1) - m2 * (a2 * c2) /\ -1 <= e <= 1.
Proof.
  intros m1 m2 a1 a2 c1 c2 H1 H2 Ha1 Ha2 Hc1 Hc2.
  exists ((m1 * (a1 * c1) - m2 * (a2 * c2)) / (m1 + m2)). split.
  - unfold chiminus_tilts, chiminus, chi_costilt_to_chiz, total_mass, xsub. cbn [xmul xadd xopp].
    rewrite xeqb_ne by lra. rewrite xdiv_fin' by lra. reflexivity.
  - split; [field; lra|]. assert (B1 : -1 <= a1 * c1 <= 1) by (split; nra). assert (B2 : -1 <= a2 * c2 <= 1) by (split; nra).
    split; apply (Rmult_le_reg_r (m1 + m2)); try lra;
      (replace ((m1 * (a1 * c1) - m2 * (a2 * c2)) / (m1 + m2) * (m1 + m2)) with (m1 * (a1 * c1) - m2 * (a2 * c2)) by (field; lra)); nra.
Qed.
Print Assumptions C128_spin_difference.

(** the guarded points: a redshift of -1, a ratio of zero and a vanishing total mass give +inf *)
Theorem C128_guards : forall m,
  m_det_z_to_m_source (Fin m) (Fin (-1)) = PInf /\ m2_q_to_m1 (Fin m) (Fin 0) = PInf
  /\ reduced_mass (Fin m) (Fin (- m)) = PInf /\ delta_m (Fin m) (Fin (- m)) = PInf.
Proof.
  intros m. unfold m_det_z_to_m_source, m2_q_to_m1, reduced_mass, delta_m, total_mass. cbn [xadd].
  repeat match goal with |- context [xeqb (Fin ?a) (Fin ?b)] =>
    replace (xeqb (Fin a) (Fin b)) with true by (symmetry; apply xeqb_fin; lra) end.
  repeat split.
Qed.
Print Assumptions C128_guards.

Example C128_nonvacuous :
  m_det_z_to_m_source (Fin 60) (Fin 1) = Fin 30 /\ symmetric_mass_ratio_to_delta_m (Fin (3/16)) = Fin (1/2).
Proof.
  split.
  - destruct (C128_frames 60 1 ltac:(lra)) as (_ & -> & _). f_equal. field.
  - destruct (C128_difference_ratio 30 10 ltac:(lra)) as (d & E & F & _ & _ & H).
    assert (d = 1/2) by lra. subst d. rewrite <- H. f_equal. rewrite eta_fin by lra. f_equal. field.
Qed.
