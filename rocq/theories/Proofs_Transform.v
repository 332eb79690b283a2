From Coq Require Import Reals Lra Lia List Bool Psatz.
From Verif Require Import Model_X Spec_X Proofs_X Model_Joint Model_Constraints Spec_Constraints Proofs_Constraints.
From Verif Require Import Model_Transform Spec_Transform.
Import ListNotations.
Open Scope R_scope.

(** ** finite values of the primitives *)
Lemma xeqb_fin a b : xeqb (Fin a) (Fin b) = true <-> a = b.
Proof. simpl. destruct (Req_EM_T a b); split; congruence. Qed.
Lemma xeqb_ne a b : a <> b -> xeqb (Fin a) (Fin b) = false.
Proof. intros H. simpl. destruct (Req_EM_T a b); congruence. Qed.
Lemma xleb_le a b : xleb (Fin a) (Fin b) = true <-> a <= b.
Proof. simpl. destruct (Rle_dec a b); split; auto; congruence. Qed.
Lemma xltb_lt a b : xltb (Fin a) (Fin b) = true <-> a < b.
Proof. simpl. destruct (Rlt_dec a b); split; auto; congruence. Qed.
Lemma xsqrt_fin a : 0 <= a -> xsqrt (Fin a) = Fin (sqrt a).
Proof. intros H. simpl. destruct (Rlt_dec a 0); [lra|auto]. Qed.
Lemma xpow_fin a e : 0 < a -> xpow (Fin a) e = Fin (Rpower a e).
Proof. intros H. simpl. destruct (Rlt_dec 0 a); [auto|lra]. Qed.
Lemma xln_fin a : 0 < a -> xln (Fin a) = Fin (ln a).
Proof. intros H. simpl. destruct (Rlt_dec 0 a); [auto|lra]. Qed.
Lemma xdiv_fin' a b : b <> 0 -> xdiv (Fin a) (Fin b) = Fin (a / b).
Proof. intros H. simpl. destruct (Req_EM_T b 0); [lra|auto]. Qed.
Lemma xmax_fin a b : xmax (Fin a) (Fin b) = Fin (Rmax a b).
Proof. unfold xmax. simpl. unfold Rmax. destruct (Rle_dec a b); auto. Qed.
Lemma xsub_fin a b : xsub (Fin a) (Fin b) = Fin (a - b).
Proof. reflexivity. Qed.

Lemma ln_div a b : 0 < a -> 0 < b -> ln (a / b) = ln a - ln b.
Proof. intros Ha Hb. unfold Rdiv. rewrite ln_mult, ln_Rinv; auto. now apply Rinv_0_lt_compat. Qed.
Lemma exp_mult_ln a k : exp (k * ln a) = Rpower a k.
Proof. reflexivity. Qed.

Lemma mass_ratio_fin a b : a <> 0 -> mass_ratio (Fin a) (Fin b) = Fin (b / a).
Proof. intros H. unfold mass_ratio. rewrite xeqb_ne by auto. now apply xdiv_fin'. Qed.
Lemma chirp_mass_fin a b : 0 < a -> 0 < b ->
  chirp_mass (Fin a) (Fin b) = Fin (exp (3/5 * ln (a * b) - 1/5 * ln (a + b))).
Proof.
  intros Ha Hb. unfold chirp_mass, m1_times_m2, total_mass. cbn [xmul xadd].
  rewrite !xpow_fin by nra. cbn [xmul]. f_equal. unfold Rpower. rewrite <- exp_plus. f_equal. ring.
Qed.
Lemma eta_fin a b : 0 < a + b -> symmetric_mass_ratio (Fin a) (Fin b) = Fin (a * b / ((a + b) * (a + b))).
Proof.
  intros H. unfold symmetric_mass_ratio, xpow_m2, m1_times_m2, total_mass. cbn [xadd xmul].
  rewrite xdiv_fin' by nra. cbn [xmul]. f_equal. field. lra.
Qed.
Lemma delta_fin a b : 0 < a + b -> delta_m (Fin a) (Fin b) = Fin ((a - b) / (a + b)).
Proof.
  intros H. unfold delta_m, total_mass, xsub. cbn [xadd xopp]. rewrite xeqb_ne by lra.
  rewrite xdiv_fin' by lra. reflexivity.
Qed.

Lemma one_minus_4eta a b : 0 < a + b ->
  1 - 4 * (a * b / ((a + b) * (a + b))) = ((a - b) / (a + b)) * ((a - b) / (a + b)).
Proof. intros H. field. lra. Qed.

Lemma Mc_eta_fin Mc eta : 0 < eta -> eta <= 1/4 ->
  Mc_eta_to_m1_m2 (Fin Mc) (Fin eta)
  = (let p := 1/2 * Mc * Rpower eta (-(3/5)) in
     (Fin (p * (1 + sqrt (1 - 4 * eta))), Fin (p * (1 - sqrt (1 - 4 * eta))))).
Proof.
  intros H1 H2. unfold Mc_eta_to_m1_m2. rewrite xpow_fin by auto.
  unfold xsub. cbn [xmul xopp xadd]. rewrite !xmax_fin, !Rmax_left by lra.
  rewrite !xsqrt_fin by lra. cbn [xmul xopp xadd].
  replace (1 + - (4 * eta)) with (1 - 4 * eta) by ring. reflexivity.
Qed.

(** Mc eta^(-3/5) = m1 + m2 *)
Lemma total_from_chirp a b : 0 < a -> 0 < b ->
  exp (3/5 * ln (a * b) - 1/5 * ln (a + b)) * Rpower (a * b / ((a + b) * (a + b))) (-(3/5)) = a + b.
Proof.
  intros Ha Hb. assert (0 < a * b) by nra. assert (0 < a + b) by lra.
  unfold Rpower. rewrite <- exp_plus, ln_div, (ln_mult (a + b)) by nra.
  transitivity (exp (ln (a + b))); [f_equal; lra|apply exp_ln; lra].
Qed.

Lemma eta_range a b : 0 < a -> 0 < b -> 0 < a * b / ((a + b) * (a + b)) <= 1/4.
Proof.
  intros Ha Hb. split; [apply Rdiv_lt_0_compat; nra|].
  apply (Rmult_le_reg_r ((a + b) * (a + b))); [nra|].
  replace (a * b / ((a + b) * (a + b)) * ((a + b) * (a + b))) with (a * b) by (field; lra).
  pose proof (Rle_0_sqr (a - b)). unfold Rsqr in *. lra.
Qed.

Lemma sqrt_delta a b : 0 < a -> 0 < b -> b <= a ->
  sqrt (1 - 4 * (a * b / ((a + b) * (a + b)))) = (a - b) / (a + b).
Proof.
  intros. rewrite one_minus_4eta by lra. apply sqrt_square.
  apply Rmult_le_pos; [lra|]. left. apply Rinv_0_lt_compat. lra.
Qed.

Theorem Mc_eta_round_trip a b : 0 < b -> b <= a ->
  Mc_eta_to_m1_m2 (chirp_mass (Fin a) (Fin b)) (symmetric_mass_ratio (Fin a) (Fin b)) = (Fin a, Fin b).
Proof.
  intros Hb Hab. assert (Ha : 0 < a) by lra. rewrite chirp_mass_fin, eta_fin by lra.
  pose proof (eta_range a b Ha Hb). rewrite Mc_eta_fin by lra. cbv zeta.
  rewrite sqrt_delta by lra. rewrite (Rmult_assoc (1/2)), total_from_chirp by auto.
  f_equal; f_equal; field; lra.
Qed.

Lemma masses_of_Mc_eta Mc eta : 0 < Mc -> 0 < eta <= 1/4 ->
  let p := 1/2 * Mc * Rpower eta (-(3/5)) in
  let a := p * (1 + sqrt (1 - 4 * eta)) in
  let b := p * (1 - sqrt (1 - 4 * eta)) in
  0 < b <= a /\ a + b = Mc * Rpower eta (-(3/5)) /\ a * b = (Mc * Rpower eta (-(3/5))) * (Mc * Rpower eta (-(3/5))) * eta.
Proof.
  intros HM [He1 He2] p a b. assert (Hp : 0 < Rpower eta (-(3/5))) by apply exp_pos.
  assert (0 < p) by (unfold p; nra).
  assert (Hs0 : 0 <= sqrt (1 - 4 * eta)) by apply sqrt_pos.
  assert (Hs : sqrt (1 - 4 * eta) * sqrt (1 - 4 * eta) = 1 - 4 * eta) by (apply sqrt_sqrt; lra).
  assert (Hs1 : sqrt (1 - 4 * eta) < 1) by nra.
  split; [|split].
  - unfold a, b. split; [nra|]. apply Rmult_le_compat_l; lra.
  - unfold a, b, p. lra.
  - unfold a, b. transitivity (p * p * (1 - sqrt (1 - 4 * eta) * sqrt (1 - 4 * eta))); [ring|].
    rewrite Hs. unfold p. field.
Qed.

Theorem Mc_eta_reproduced Mc eta : 0 < Mc -> 0 < eta <= 1/4 ->
  exists m1 m2, Mc_eta_to_m1_m2 (Fin Mc) (Fin eta) = (Fin m1, Fin m2) /\ 0 < m2 <= m1
    /\ chirp_mass (Fin m1) (Fin m2) = Fin Mc /\ symmetric_mass_ratio (Fin m1) (Fin m2) = Fin eta.
Proof.
  intros HM He. rewrite Mc_eta_fin by lra. cbv zeta.
  pose proof (masses_of_Mc_eta Mc eta HM He) as H. cbv zeta in H.
  set (a := 1/2 * Mc * Rpower eta (-(3/5)) * (1 + sqrt (1 - 4 * eta))) in *.
  set (b := 1/2 * Mc * Rpower eta (-(3/5)) * (1 - sqrt (1 - 4 * eta))) in *.
  destruct H as (Hab & Hsum & Hprod). exists a, b. split; auto. split; auto.
  assert (Hp : 0 < Rpower eta (-(3/5))) by apply exp_pos.
  set (P := Mc * Rpower eta (-(3/5))) in *. assert (HP : 0 < P) by (unfold P; nra). split.
  - rewrite chirp_mass_fin by lra. f_equal. rewrite Hsum, Hprod.
    rewrite (ln_mult (P * P)), (ln_mult P) by nra.
    assert (HlnP : ln P = ln Mc - 3/5 * ln eta).
    { unfold P. rewrite ln_mult by auto. unfold Rpower. rewrite ln_exp. lra. }
    rewrite <- (exp_ln Mc) by auto. f_equal. rewrite HlnP. lra.
  - rewrite eta_fin by lra. f_equal. rewrite Hsum, Hprod. field. lra.
Qed.

(** ** the other transforms *)
Section T.
Variable fmax : R.

Ltac fold_fins := change (fins [?a; ?b]) with [Fin a; Fin b].

Theorem m1q_to_m1m2_from m1 q : m1 <> 0 -> returns_from (m1q_to_m1m2 fmax) [m1; q].
Proof.
  intros H. exists [m1; m1 * q]. split; [reflexivity|]. cbn. fold (mass_ratio (Fin m1) (Fin (m1 * q))).
  rewrite mass_ratio_fin by auto. do 3 f_equal. field. auto.
Qed.
Theorem m1q_to_m1m2_to m1 m2 : m1 <> 0 -> returns_to (m1q_to_m1m2 fmax) [m1; m2].
Proof.
  intros H. exists [m1; m2 / m1]. split; cbn [fins map t_inverse t_call m1q_to_m1m2 on2].
  - now rewrite mass_ratio_fin by auto.
  - cbn [xmul]. do 3 f_equal. field. auto.
Qed.
Theorem m1m2_to_m1q_from m1 m2 : m1 <> 0 -> returns_from (m1m2_to_m1q fmax) [m1; m2].
Proof.
  intros H. exists [m1; m2 / m1]. split; cbn [fins map t_inverse t_call m1m2_to_m1q on2].
  - now rewrite mass_ratio_fin by auto.
  - unfold m1_q_to_m2. cbn [xmul]. do 3 f_equal. field. auto.
Qed.
Theorem m1m2_to_m1q_to m1 q : m1 <> 0 -> returns_to (m1m2_to_m1q fmax) [m1; q].
Proof.
  intros H. exists [m1; m1 * q]. split; cbn [fins map t_inverse t_call m1m2_to_m1q on2]; [reflexivity|].
  rewrite mass_ratio_fin by auto. do 3 f_equal. field. auto.
Qed.
Theorem m1m2_to_qm2_from m1 m2 : m1 <> 0 -> m2 <> 0 -> returns_from (m1m2_to_qm2 fmax) [m1; m2].
Proof.
  intros H1 H2. exists [m2 / m1; m2]. split; cbn [fins map t_inverse t_call m1m2_to_qm2 on2].
  - now rewrite mass_ratio_fin by auto.
  - unfold m2_q_to_m1. assert (m2 / m1 <> 0) by (apply Rmult_integral_contrapositive; split; auto; now apply Rinv_neq_0_compat).
    rewrite xeqb_ne, xdiv_fin' by auto. f_equal. f_equal. field. auto.
Qed.
Theorem m1m2_to_qm2_to q m2 : q <> 0 -> m2 <> 0 -> returns_to (m1m2_to_qm2 fmax) [q; m2].
Proof.
  intros H1 H2. exists [m2 / q; m2]. split; cbn [fins map t_inverse t_call m1m2_to_qm2 on2].
  - unfold m2_q_to_m1. now rewrite xeqb_ne, xdiv_fin' by auto.
  - assert (m2 / q <> 0) by (apply Rmult_integral_contrapositive; split; auto; now apply Rinv_neq_0_compat).
    rewrite mass_ratio_fin by auto. f_equal. f_equal. field. auto.
Qed.
Theorem m1m2_to_Mq_from m1 m2 : m1 <> 0 -> m1 + m2 <> 0 -> returns_from (m1m2_to_Mq fmax) [m1; m2].
Proof.
  intros H1 H2. exists [m1 + m2; m2 / m1]. split; cbn [fins map t_inverse t_call m1m2_to_Mq on2].
  - unfold total_mass. now rewrite mass_ratio_fin by auto.
  - assert (Hq : m2 / m1 <> -1).
    { intros E. apply H2. assert (m2 = m2 / m1 * m1) by (field; auto). nra. }
    rewrite xeqb_ne by auto. cbn [xadd]. assert (1 + m2 / m1 <> 0) by lra. rewrite xdiv_fin' by auto.
    unfold m1_q_to_m2. cbn [xmul].
    assert (E : (m1 + m2) / (1 + m2 / m1) = m1) by (field; lra).
    rewrite E. do 3 f_equal. field. auto.
Qed.
Theorem m1m2_to_Mq_to M q : M <> 0 -> q <> -1 -> returns_to (m1m2_to_Mq fmax) [M; q].
Proof.
  intros H1 H2. assert (H3 : 1 + q <> 0) by lra.
  exists [M / (1 + q); M / (1 + q) * q]. split; cbn [fins map t_inverse t_call m1m2_to_Mq on2].
  - rewrite xeqb_ne by auto. cbn [xadd]. now rewrite xdiv_fin' by auto.
  - assert (M / (1 + q) <> 0) by (apply Rmult_integral_contrapositive; split; auto; now apply Rinv_neq_0_compat).
    rewrite mass_ratio_fin by auto. unfold total_mass. cbn [xadd]. f_equal; [f_equal; field; auto|].
    do 2 f_equal. field. auto.
Qed.
Theorem m1m2_to_Mc_eta_from m1 m2 : 0 < m2 <= m1 -> returns_from (m1m2_to_Mc_eta fmax) [m1; m2].
Proof.
  intros [H1 H2]. eexists [_; _]. split; cbn [fins map t_inverse t_call m1m2_to_Mc_eta on2].
  - rewrite chirp_mass_fin, eta_fin by lra. reflexivity.
  - rewrite <- chirp_mass_fin, <- eta_fin by lra. rewrite Mc_eta_round_trip by auto. reflexivity.
Qed.
Theorem m1m2_to_Mc_eta_to Mc eta : 0 < Mc -> 0 < eta <= 1/4 -> returns_to (m1m2_to_Mc_eta fmax) [Mc; eta].
Proof.
  intros H1 H2. destruct (Mc_eta_reproduced Mc eta H1 H2) as (m1 & m2 & E & _ & E1 & E2).
  exists [m1; m2]. split; cbn [fins map t_inverse t_call m1m2_to_Mc_eta on2]; [now rewrite E|now rewrite E1, E2].
Qed.

Lemma delta_eta a b : 0 < a + b ->
  delta_m_to_symmetric_mass_ratio (delta_m (Fin a) (Fin b)) = symmetric_mass_ratio (Fin a) (Fin b).
Proof.
  intros H. rewrite delta_fin, eta_fin by auto. unfold delta_m_to_symmetric_mass_ratio, xsub. cbn [xmul xopp xadd].
  f_equal. field. lra.
Qed.
Theorem m1m2_to_Mc_delta_from m1 m2 : 0 < m2 <= m1 -> returns_from (m1m2_to_Mc_delta fmax) [m1; m2].
Proof.
  intros [H1 H2]. eexists [_; _]. split; cbn [fins map t_inverse t_call m1m2_to_Mc_delta on2].
  - rewrite chirp_mass_fin, delta_fin by lra. reflexivity.
  - rewrite <- chirp_mass_fin, <- delta_fin by lra. rewrite delta_eta by lra.
    rewrite Mc_eta_round_trip by auto. reflexivity.
Qed.
Theorem m1m2_to_Mc_delta_to Mc delta : 0 < Mc -> 0 <= delta < 1 -> returns_to (m1m2_to_Mc_delta fmax) [Mc; delta].
Proof.
  intros H1 H2. set (eta := 1/4 * (1 - delta * delta)).
  assert (He : 0 < eta <= 1/4) by (unfold eta; nra).
  assert (Ed : delta_m_to_symmetric_mass_ratio (Fin delta) = Fin eta) by reflexivity.
  destruct (Mc_eta_reproduced Mc eta H1 He) as (m1 & m2 & E & Hm & E1 & E2).
  exists [m1; m2]. split; cbn [fins map t_inverse t_call m1m2_to_Mc_delta on2]; [now rewrite Ed, E|].
  rewrite E1, delta_fin by lra. do 3 f_equal.
  rewrite eta_fin in E2 by lra. injection E2 as E2.
  assert (Hs : sqrt (1 - 4 * eta) = delta).
  { replace (1 - 4 * eta) with (delta * delta) by (unfold eta; field). apply sqrt_square. lra. }
  rewrite <- Hs, <- E2. symmetry. apply sqrt_delta; lra.
Qed.

Theorem delta_to_eta_from d : 0 <= d -> d <= 1 -> returns_from delta_to_eta [d].
Proof.
  intros H1 H2. exists [(1 - d * d) * (1/4)]. split; [reflexivity|]. cbn [fins map t_inverse delta_to_eta].
  unfold xsub. cbn [xmul xopp xadd]. rewrite xsqrt_fin by nra. do 2 f_equal.
  replace (1 + - (4 * ((1 - d * d) * (1/4)))) with (d * d) by field. now apply sqrt_square.
Qed.
Theorem delta_to_eta_to e : e <= 1/4 -> returns_to delta_to_eta [e].
Proof.
  intros H. exists [sqrt (1 - 4 * e)]. split; cbn [fins map t_inverse t_call delta_to_eta].
  - unfold xsub. cbn [xmul xopp xadd]. rewrite xsqrt_fin by lra. reflexivity.
  - unfold xsub. cbn [xmul xopp xadd]. rewrite sqrt_sqrt by lra. do 2 f_equal. field.
Qed.
Theorem source_to_detected_from m z : 1 + z <> 0 -> returns_from source_to_detected [m; z].
Proof.
  intros H. exists [m * (1 + z); z]. split; [reflexivity|]. cbn [fins map t_inverse source_to_detected on2 xadd].
  rewrite xdiv_fin' by auto. do 2 f_equal. field. auto.
Qed.
Theorem source_to_detected_to m z : 1 + z <> 0 -> returns_to source_to_detected [m; z].
Proof.
  intros H. exists [m / (1 + z); z]. cbn [fins map t_call t_inverse source_to_detected on2 xadd]. rewrite xdiv_fin' by auto.
  split; [reflexivity|]. cbn [xmul]. do 2 f_equal. field. auto.
Qed.
Theorem component_source_to_detected_from m1 m2 z : 1 + z <> 0 -> returns_from component_source_to_detected [m1; m2; z].
Proof.
  intros H. exists [m1 * (1 + z); m2 * (1 + z); z]. split; [reflexivity|].
  cbn [fins map t_inverse component_source_to_detected on3 xadd].
  rewrite !xdiv_fin' by auto. f_equal; [f_equal; field; auto|]. do 2 f_equal. field. auto.
Qed.
Theorem component_source_to_detected_to m1 m2 z : 1 + z <> 0 -> returns_to component_source_to_detected [m1; m2; z].
Proof.
  intros H. exists [m1 / (1 + z); m2 / (1 + z); z].
  cbn [fins map t_call t_inverse component_source_to_detected on3 xadd]. rewrite !xdiv_fin' by auto.
  split; [reflexivity|]. cbn [xmul]. f_equal; [f_equal; field; auto|]. do 2 f_equal. field. auto.
Qed.

(** ** codomains *)
Lemma pos_decreasing_2 p : pos_decreasing 2 (fins p) = true <-> exists m1 m2, p = [m1; m2] /\ 0 < m2 <= m1.
Proof.
  unfold pos_decreasing, positive_decreasing_vector, decreasing_vector, positive_vector, adjacent.
  destruct p as [|m1 [|m2 [|x p]]]; cbn [fins map length Nat.eqb andb]; split; try discriminate;
    try (intros (a & b & E & _); discriminate).
  - cbn [tl firstn length Nat.sub combine forallb fst snd andb]. rewrite !andb_true_r, !andb_true_iff, !xltb_lt, xleb_le.
    intros (H1 & H2 & H3). eauto.
  - intros (a & b & E & H1 & H2). injection E as -> ->.
    cbn [tl firstn length Nat.sub combine forallb fst snd andb]. rewrite !andb_true_r, !andb_true_iff, !xltb_lt, xleb_le.
    lra.
Qed.
Lemma positives_2 p : positives 2 (fins p) = true <-> exists a b, p = [a; b] /\ 0 < a /\ 0 < b.
Proof.
  unfold positives, positive_vector.
  destruct p as [|m1 [|m2 [|x p]]]; cbn [fins map length Nat.eqb andb]; split; try discriminate;
    try (intros (a & b & E & _); discriminate).
  - cbn [forallb]. rewrite andb_true_r, !andb_true_iff, !xltb_lt. intros (H1 & H2). eauto.
  - intros (a & b & E & H1 & H2). injection E as -> ->. cbn [forallb]. rewrite andb_true_r, !andb_true_iff, !xltb_lt. auto.
Qed.
Lemma positives_3 p : positives 3 (fins p) = true <-> exists a b c, p = [a; b; c] /\ 0 < a /\ 0 < b /\ 0 < c.
Proof.
  unfold positives, positive_vector.
  destruct p as [|m1 [|m2 [|m3 [|x p]]]]; cbn [fins map length Nat.eqb andb]; split; try discriminate;
    try (intros (a & b & c & E & _); discriminate).
  - cbn [forallb]. rewrite andb_true_r, !andb_true_iff, !xltb_lt. intros (H1 & H2 & H3). eauto 8.
  - intros (a & b & c & E & H1 & H2 & H3). injection E as -> -> ->. cbn [forallb]. rewrite andb_true_r, !andb_true_iff, !xltb_lt. auto.
Qed.
Lemma intervals_2 a b c d x y : intervals [(Fin a, Fin b); (Fin c, Fin d)] [Fin x; Fin y] = true <-> a <= x <= b /\ c <= y <= d.
Proof.
  unfold intervals. cbn [length Nat.eqb combine forallb andb fst snd]. rewrite andb_true_r, !andb_true_iff, !xleb_le. tauto.
Qed.
Lemma open_intervals_2 a b c d x y : open_intervals [(Fin a, Fin b); (Fin c, Fin d)] [Fin x; Fin y] = true <-> a < x < b /\ c < y < d.
Proof.
  unfold open_intervals. cbn [length Nat.eqb combine forallb andb fst snd]. rewrite andb_true_r, !andb_true_iff, !xltb_lt. tauto.
Qed.
Lemma no_overflow_2 x y : no_overflow fmax [Fin x; Fin y] -> x <= fmax /\ y <= fmax.
Proof. intros H. inversion H as [|? ? H1 H2]; subst. inversion H2; subst. rewrite !xleb_le in *. auto. Qed.

Lemma ratio_range a b : 0 < b <= a -> 0 < b / a <= 1.
Proof.
  intros H. split; [apply Rdiv_lt_0_compat; lra|].
  apply (Rmult_le_reg_r a); [lra|]. unfold Rdiv. rewrite Rmult_assoc, Rinv_l by lra. lra.
Qed.
Lemma delta_range a b : 0 < b <= a -> 0 <= (a - b) / (a + b) < 1.
Proof.
  intros H. split; [apply Rmult_le_pos; [lra|left; apply Rinv_0_lt_compat; lra]|].
  apply (Rmult_lt_reg_r (a + b)); [lra|]. unfold Rdiv. rewrite Rmult_assoc, Rinv_l by lra. lra.
Qed.

Theorem codomain_Mc_eta : lands_in_codomain fmax (m1m2_to_Mc_eta fmax).
Proof.
  intros p Hp. apply pos_decreasing_2 in Hp as (a & b & -> & H).
  cbn [fins map t_call t_codomain m1m2_to_Mc_eta on2]. rewrite chirp_mass_fin, eta_fin by lra.
  intros Ho. apply no_overflow_2 in Ho as [Ho _]. apply intervals_2. pose proof (eta_range a b).
  pose proof (exp_pos (3/5 * ln (a * b) - 1/5 * ln (a + b))). lra.
Qed.
Theorem codomain_Mc_delta : lands_in_codomain fmax (m1m2_to_Mc_delta fmax).
Proof.
  intros p Hp. apply pos_decreasing_2 in Hp as (a & b & -> & H).
  cbn [fins map t_call t_codomain m1m2_to_Mc_delta on2]. rewrite chirp_mass_fin, delta_fin by lra.
  intros Ho. apply no_overflow_2 in Ho as [Ho _]. apply intervals_2. pose proof (delta_range a b H).
  pose proof (exp_pos (3/5 * ln (a * b) - 1/5 * ln (a + b))). lra.
Qed.
Theorem codomain_qm2 : lands_in_codomain fmax (m1m2_to_qm2 fmax).
Proof.
  intros p Hp. apply pos_decreasing_2 in Hp as (a & b & -> & H).
  cbn [fins map t_call t_codomain m1m2_to_qm2 on2]. rewrite mass_ratio_fin by lra.
  intros Ho. apply no_overflow_2 in Ho as [_ Ho]. apply intervals_2. pose proof (ratio_range a b H). lra.
Qed.
Theorem codomain_Mq : lands_in_codomain fmax (m1m2_to_Mq fmax).
Proof.
  intros p Hp. apply pos_decreasing_2 in Hp as (a & b & -> & H).
  cbn [fins map t_call t_codomain m1m2_to_Mq on2]. rewrite mass_ratio_fin by lra. unfold total_mass. cbn [xadd].
  intros Ho. apply no_overflow_2 in Ho as [Ho _]. apply intervals_2. pose proof (ratio_range a b H). lra.
Qed.
Theorem codomain_delta_eta : lands_in_codomain fmax delta_to_eta.
Proof.
  intros [|d [|x p]] Hp; try discriminate.
  unfold delta_to_eta, intervals, t_domain, fins in Hp. cbn [map length Nat.eqb combine forallb andb fst snd] in Hp.
  rewrite andb_true_r, andb_true_iff, !xleb_le in Hp. intros _.
  unfold delta_to_eta, t_codomain, t_call, fins, intervals, xsub. cbn [map xmul xopp xadd length Nat.eqb combine forallb andb fst snd].
  rewrite andb_true_r, andb_true_iff, !xleb_le. nra.
Qed.
Theorem codomain_source : lands_in_codomain fmax source_to_detected.
Proof.
  intros p Hp _. apply positives_2 in Hp as (a & b & -> & H1 & H2).
  change (t_codomain source_to_detected (t_call source_to_detected (fins [a; b]))) with (positives 2 (fins [a * (1 + b); b])).
  apply positives_2. do 2 eexists. split; [reflexivity|]. split; nra.
Qed.
Theorem codomain_component_source : lands_in_codomain fmax component_source_to_detected.
Proof.
  intros p Hp _. apply positives_3 in Hp as (a & b & c & -> & H1 & H2 & H3).
  change (t_codomain component_source_to_detected (t_call component_source_to_detected (fins [a; b; c])))
    with (positives 3 (fins [a * (1 + c); b * (1 + c); c])).
  apply positives_3. do 3 eexists. split; [reflexivity|]. repeat split; nra.
Qed.
(** the two transforms between (m1, m2) and (m1, q), away from the boundary *)
Theorem codomain_m1q m1 m2 : 0 < m2 < m1 -> m1 < fmax ->
  t_domain (m1m2_to_m1q fmax) (fins [m1; m2]) = true
  /\ t_codomain (m1m2_to_m1q fmax) (t_call (m1m2_to_m1q fmax) (fins [m1; m2])) = true.
Proof.
  intros H Hf. split; [apply pos_decreasing_2; do 2 eexists; split; [reflexivity|lra]|].
  cbn [fins map t_call t_codomain m1m2_to_m1q on2]. rewrite mass_ratio_fin by lra. apply open_intervals_2.
  pose proof (ratio_range m1 m2 ltac:(lra)). assert (m2 / m1 <> 1).
  { intros E. assert (m2 = m2 / m1 * m1) by (field; lra). nra. }
  lra.
Qed.
Theorem codomain_m1m2 m1 q : 0 < m1 <= fmax -> 0 < q <= 1 ->
  t_domain (m1q_to_m1m2 fmax) (fins [m1; q]) = true
  /\ t_codomain (m1q_to_m1m2 fmax) (t_call (m1q_to_m1m2 fmax) (fins [m1; q])) = true.
Proof.
  intros H Hq. split; [apply intervals_2; lra|].
  change (t_codomain (m1q_to_m1m2 fmax) (t_call (m1q_to_m1m2 fmax) (fins [m1; q]))) with (pos_decreasing 2 (fins [m1; m1 * q])).
  apply pos_decreasing_2. do 2 eexists. split; [reflexivity|]. split; nra.
Qed.
End T.
