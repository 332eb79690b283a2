From Coq Require Import Reals Lra Lia List Bool Psatz.
From Coquelicot Require Import Coquelicot.
From Verif Require Import Model_X Spec_X Proofs_X Model_Joint Model_Transform Spec_Transform Proofs_Transform.
Import ListNotations.
Open Scope R_scope.

Lemma near_pos a eps x : 0 < a -> eps <= a / 2 -> Rabs (x - a) < eps -> 0 < x.
Proof. intros Ha He H. apply Rabs_def2 in H. lra. Qed.

Lemma ln_inv' a : 0 < a -> ln (/ a) = - ln a.
Proof. apply ln_Rinv. Qed.

Section J.
Variable fmax : R.

Theorem jacobian_m1q_to_m1m2 m1 q : 0 < m1 -> true_jacobian2 (m1q_to_m1m2 fmax) m1 q.
Proof.
  intros H. exists (fun x y => x), (fun x y => x * y), 1, 1, 0, q, m1. split; [lra|].
  split; [reflexivity|]. repeat split.
  1-4: apply is_derive_Reals; auto_derive; auto; ring.
  - lra.
  - replace (1 * m1 - 0 * q) with m1 by ring. cbn [t_call t_ladj m1q_to_m1m2 on2 at_ nth xabs].
    rewrite xln_fin; auto. rewrite Rabs_pos_eq; lra.
Qed.

Theorem jacobian_m1m2_to_m1q m1 m2 : 0 < m1 -> true_jacobian2 (m1m2_to_m1q fmax) m1 m2.
Proof.
  intros H. exists (fun x y => x), (fun x y => y / x), (m1 / 2), 1, 0, (- m2 / (m1 * m1)), (/ m1). split; [lra|].
  split.
  { intros x y Hx _. assert (0 < x) by (apply (near_pos m1 (m1 / 2)); auto; lra).
    cbn [t_call m1m2_to_m1q on2]. now rewrite mass_ratio_fin by lra. }
  split; [apply is_derive_Reals; auto_derive; auto; ring|].
  split; [apply is_derive_Reals; auto_derive; auto; ring|].
  split; [apply is_derive_Reals; auto_derive; [repeat split; lra|field; lra]|].
  split; [apply is_derive_Reals; auto_derive; [repeat split; lra|field; lra]|].
  replace (1 * / m1 - 0 * (- m2 / (m1 * m1))) with (/ m1) by ring.
  assert (0 < / m1) by now apply Rinv_0_lt_compat.
  split; [lra|]. cbn [t_call t_ladj m1m2_to_m1q on2 at_ nth xabs].
  rewrite (Rabs_pos_eq m1), (Rabs_pos_eq (/ m1)) by lra. rewrite xln_fin by auto. rewrite ln_inv' by auto. reflexivity.
Qed.

Theorem jacobian_m1m2_to_qm2 m1 m2 : 0 < m1 -> 0 < m2 -> true_jacobian2 (m1m2_to_qm2 fmax) m1 m2.
Proof.
  intros H H2. exists (fun x y => y / x), (fun x y => y), (m1 / 2), (- m2 / (m1 * m1)), (/ m1), 0, 1. split; [lra|].
  split.
  { intros x y Hx _. assert (0 < x) by (apply (near_pos m1 (m1 / 2)); auto; lra).
    cbn [t_call m1m2_to_qm2 on2]. now rewrite mass_ratio_fin by lra. }
  split; [apply is_derive_Reals; auto_derive; [repeat split; lra|field; lra]|].
  split; [apply is_derive_Reals; auto_derive; [repeat split; lra|field; lra]|].
  split; [apply is_derive_Reals; auto_derive; auto; ring|].
  split; [apply is_derive_Reals; auto_derive; auto; ring|].
  replace (- m2 / (m1 * m1) * 1 - / m1 * 0) with (- (m2 / m1 / m1)) by (field; lra).
  assert (Hq : 0 < m2 / m1) by now apply Rdiv_lt_0_compat.
  assert (0 < m2 / m1 / m1) by now apply Rdiv_lt_0_compat.
  split; [lra|]. rewrite Rabs_Ropp, Rabs_pos_eq by lra.
  cbn [t_call t_ladj m1m2_to_qm2 on2 at_ nth]. rewrite mass_ratio_fin by lra.
  rewrite !xln_fin by auto. rewrite (ln_div (m2 / m1)) by auto. reflexivity.
Qed.

Theorem jacobian_m1m2_to_Mq m1 m2 : 0 < m1 -> 0 < m2 -> true_jacobian2 (m1m2_to_Mq fmax) m1 m2.
Proof.
  intros H H2. exists (fun x y => x + y), (fun x y => y / x), (m1 / 2), 1, 1, (- m2 / (m1 * m1)), (/ m1). split; [lra|].
  split.
  { intros x y Hx _. assert (0 < x) by (apply (near_pos m1 (m1 / 2)); auto; lra).
    cbn [t_call m1m2_to_Mq on2]. now rewrite mass_ratio_fin by lra. }
  split; [apply is_derive_Reals; auto_derive; auto; ring|].
  split; [apply is_derive_Reals; auto_derive; auto; ring|].
  split; [apply is_derive_Reals; auto_derive; [repeat split; lra|field; lra]|].
  split; [apply is_derive_Reals; auto_derive; [repeat split; lra|field; lra]|].
  replace (1 * / m1 - 1 * (- m2 / (m1 * m1))) with ((1 + m2 / m1) / m1) by (field; lra).
  assert (Hq : 0 < m2 / m1) by now apply Rdiv_lt_0_compat.
  assert (0 < (1 + m2 / m1) / m1) by (apply Rdiv_lt_0_compat; lra).
  split; [lra|]. rewrite Rabs_pos_eq by lra.
  cbn [t_call t_ladj m1m2_to_Mq on2 at_ nth]. rewrite mass_ratio_fin by lra. cbn [xadd].
  rewrite !xln_fin by lra. rewrite ln_div by lra. reflexivity.
Qed.

Lemma chirp_derive_x m1 m2 : 0 < m1 -> 0 < m2 ->
  derivable_pt_lim (fun x => exp (3/5 * ln (x * m2) - 1/5 * ln (x + m2))) m1
    (exp (3/5 * ln (m1 * m2) - 1/5 * ln (m1 + m2)) * (3/5 / m1 - 1/5 / (m1 + m2))).
Proof.
  intros H1 H2. apply is_derive_Reals. auto_derive; [repeat split; nra|]. unfold Rminus. field. lra.
Qed.
Lemma chirp_derive_y m1 m2 : 0 < m1 -> 0 < m2 ->
  derivable_pt_lim (fun y => exp (3/5 * ln (m1 * y) - 1/5 * ln (m1 + y))) m2
    (exp (3/5 * ln (m1 * m2) - 1/5 * ln (m1 + m2)) * (3/5 / m2 - 1/5 / (m1 + m2))).
Proof.
  intros H1 H2. apply is_derive_Reals. auto_derive; [repeat split; nra|]. unfold Rminus. field. lra.
Qed.

Theorem jacobian_Mc_eta m1 m2 : 0 < m2 < m1 -> true_jacobian2 (m1m2_to_Mc_eta fmax) m1 m2.
Proof.
  intros H. set (Mc := exp (3/5 * ln (m1 * m2) - 1/5 * ln (m1 + m2))).
  assert (HMc : 0 < Mc) by apply exp_pos.
  exists (fun x y => exp (3/5 * ln (x * y) - 1/5 * ln (x + y))), (fun x y => x * y / ((x + y) * (x + y))), (m2 / 2),
    (Mc * (3/5 / m1 - 1/5 / (m1 + m2))), (Mc * (3/5 / m2 - 1/5 / (m1 + m2))),
    (m2 * (m2 - m1) / ((m1 + m2) * (m1 + m2) * (m1 + m2))), (m1 * (m1 - m2) / ((m1 + m2) * (m1 + m2) * (m1 + m2))).
  split; [lra|]. split.
  { intros x y Hx Hy. assert (0 < x) by (eapply near_pos with (a := m1); eauto; lra).
    assert (0 < y) by (eapply near_pos with (a := m2); eauto; lra).
    cbn [t_call m1m2_to_Mc_eta on2]. now rewrite chirp_mass_fin, eta_fin by lra. }
  split; [apply chirp_derive_x; lra|]. split; [apply chirp_derive_y; lra|].
  split; [apply is_derive_Reals; auto_derive; [repeat split; nra|field; lra]|].
  split; [apply is_derive_Reals; auto_derive; [repeat split; nra|field; lra]|].
  match goal with |- ?d <> 0 /\ _ => replace d with (Mc * ((m1 - m2) / ((m1 + m2) * (m1 + m2) * (m1 + m2)))) by (field; lra) end.
  assert (HM3 : 0 < (m1 + m2) * (m1 + m2) * (m1 + m2)) by (assert (0 < m1 + m2) by lra; repeat apply Rmult_lt_0_compat; lra).
  assert (HD : 0 < (m1 - m2) / ((m1 + m2) * (m1 + m2) * (m1 + m2))) by (apply Rdiv_lt_0_compat; lra).
  split; [nra|]. rewrite Rabs_pos_eq by nra.
  cbn [t_call t_ladj m1m2_to_Mc_eta on2 at_ nth]. rewrite chirp_mass_fin, eta_fin by lra. fold Mc.
  pose proof (eta_range m1 m2 ltac:(lra) ltac:(lra)) as He.
  unfold xlog1p, xsub. cbn [xmul xadd xopp].
  replace (1 + -4 * (m1 * m2 / ((m1 + m2) * (m1 + m2)))) with (1 - 4 * (m1 * m2 / ((m1 + m2) * (m1 + m2)))) by ring.
  rewrite one_minus_4eta by lra.
  assert (Hd : 0 < (m1 - m2) / (m1 + m2)) by (apply Rdiv_lt_0_compat; lra).
  rewrite !xln_fin by nra. cbn [xmul xadd xopp]. f_equal.
  rewrite (ln_mult Mc), (ln_mult ((m1 - m2) / (m1 + m2))), !ln_div by nra.
  rewrite !(ln_mult (m1 + m2)), (ln_mult ((m1 + m2) * (m1 + m2))), !(ln_mult (m1 + m2)) by nra.
  unfold Mc. rewrite ln_exp. lra.
Qed.

(** at equal masses the determinant vanishes and the code reports -inf *)
Theorem jacobian_Mc_eta_equal m : 0 < m ->
  t_ladj (m1m2_to_Mc_eta fmax) [Fin m; Fin m] (t_call (m1m2_to_Mc_eta fmax) [Fin m; Fin m]) = NInf.
Proof.
  intros H. cbn [t_call t_ladj m1m2_to_Mc_eta on2 at_ nth]. rewrite chirp_mass_fin, eta_fin by lra.
  pose proof (eta_range m m H H). unfold xlog1p, xsub. cbn [xmul xadd xopp].
  replace (1 + -4 * (m * m / ((m + m) * (m + m)))) with 0 by (field; lra).
  rewrite xln_zero, !xln_fin by (apply exp_pos || lra). cbn [xmul].
  unfold xinf_times. destruct (Rlt_dec 0 (1/2)); [reflexivity|lra].
Qed.

Theorem jacobian_Mc_delta m1 m2 : 0 < m1 -> 0 < m2 -> true_jacobian2 (m1m2_to_Mc_delta fmax) m1 m2.
Proof.
  intros H1 H2. set (Mc := exp (3/5 * ln (m1 * m2) - 1/5 * ln (m1 + m2))).
  assert (HMc : 0 < Mc) by apply exp_pos.
  assert (exists eps, 0 < eps /\ eps <= m1 / 2 /\ eps <= m2 / 2) as (eps & He & He1 & He2).
  { exists (Rmin (m1/2) (m2/2)). split; [apply Rmin_pos; lra|]. split; [apply Rmin_l|apply Rmin_r]. }
  exists (fun x y => exp (3/5 * ln (x * y) - 1/5 * ln (x + y))), (fun x y => (x - y) / (x + y)), eps,
    (Mc * (3/5 / m1 - 1/5 / (m1 + m2))), (Mc * (3/5 / m2 - 1/5 / (m1 + m2))),
    (2 * m2 / ((m1 + m2) * (m1 + m2))), (- 2 * m1 / ((m1 + m2) * (m1 + m2))).
  split; [lra|]. split.
  { intros x y Hx Hy. assert (0 < x) by (eapply near_pos with (a := m1); eauto; lra).
    assert (0 < y) by (eapply near_pos with (a := m2); eauto; lra).
    cbn [t_call m1m2_to_Mc_delta on2]. now rewrite chirp_mass_fin, delta_fin by lra. }
  split; [apply chirp_derive_x; lra|]. split; [apply chirp_derive_y; lra|].
  split; [apply is_derive_Reals; auto_derive; [repeat split; lra|field; lra]|].
  split; [apply is_derive_Reals; auto_derive; [repeat split; lra|field; lra]|].
  match goal with |- ?d <> 0 /\ _ => replace d with (- (2 * Mc / ((m1 + m2) * (m1 + m2)))) by (field; lra) end.
  assert (HM2 : 0 < (m1 + m2) * (m1 + m2)) by nra.
  assert (HD : 0 < 2 * Mc / ((m1 + m2) * (m1 + m2))) by (apply Rdiv_lt_0_compat; lra).
  split; [lra|]. rewrite Rabs_Ropp, Rabs_pos_eq by lra.
  cbn [t_call t_ladj m1m2_to_Mc_delta on2 at_ nth]. rewrite chirp_mass_fin by lra. fold Mc.
  unfold total_mass. cbn [xadd]. rewrite !xln_fin by lra. cbn [xmul xadd xopp]. f_equal.
  rewrite ln_div, (ln_mult 2), (ln_mult (m1 + m2)) by lra. lra.
Qed.

Theorem jacobian_delta_eta d : 0 < d -> true_jacobian1 delta_to_eta d.
Proof.
  intros H. exists (fun x => (1 - x * x) * (1/4)), 1, (- (d / 2)). split; [lra|].
  split; [reflexivity|]. split; [apply is_derive_Reals; auto_derive; auto; field|].
  split; [lra|]. rewrite Rabs_Ropp, Rabs_pos_eq by lra.
  cbn [t_call t_ladj delta_to_eta at_ nth]. rewrite !xln_fin by lra. rewrite ln_div by lra. reflexivity.
Qed.
Theorem jacobian_source m z : 0 < 1 + z -> true_jacobian2 source_to_detected m z.
Proof.
  intros H. exists (fun x y => x * (1 + y)), (fun x y => y), 1, (1 + z), m, 0, 1. split; [lra|].
  split; [reflexivity|]. repeat split.
  1-4: apply is_derive_Reals; auto_derive; auto; ring.
  - lra.
  - replace ((1 + z) * 1 - m * 0) with (1 + z) by ring. rewrite Rabs_pos_eq by lra.
    unfold t_ladj, source_to_detected, at_, xlog1p. cbn [nth xadd]. now rewrite xln_fin by lra.
Qed.
Theorem jacobian_component_source m1 m2 z : 0 < 1 + z -> true_jacobian3 component_source_to_detected m1 m2 z.
Proof.
  intros H. exists (fun x y z => x * (1 + z)), (fun x y z => y * (1 + z)), (fun x y z => z), 1,
    (1 + z), 0, m1, 0, (1 + z), m2, 0, 0, 1. split; [lra|].
  split; [reflexivity|]. repeat split.
  1-9: apply is_derive_Reals; auto_derive; auto; ring.
  - unfold det3. nra.
  - unfold det3. match goal with |- _ = Fin (ln (Rabs ?d)) => replace d with ((1 + z) * (1 + z)) by ring end.
    rewrite Rabs_pos_eq, ln_mult by nra.
    unfold t_ladj, component_source_to_detected, at_, xlog1p. cbn [nth xadd]. rewrite xln_fin by lra. cbn [xmul].
    f_equal. ring.
Qed.
End J.
