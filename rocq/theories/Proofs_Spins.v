From Coq Require Import Reals Lra Lia List Bool Psatz.
From Verif Require Import Model_X Spec_X Proofs_X Model_Joint Model_Transform Spec_Transform Proofs_Transform Model_Coordinates.
Import ListNotations.
Open Scope R_scope.

(** ** effective spins *)
Lemma chieff_fin a b x y : 0 < a + b -> chieff (Fin a) (Fin b) (Fin x) (Fin y) = Fin ((a * x + b * y) / (a + b)).
Proof. intros H. unfold chieff, total_mass. cbn [xadd xmul]. rewrite xeqb_ne by lra. now rewrite xdiv_fin' by lra. Qed.
Lemma chiminus_fin a b x y : 0 < a + b -> chiminus (Fin a) (Fin b) (Fin x) (Fin y) = Fin ((a * x - b * y) / (a + b)).
Proof. intros H. unfold chiminus, total_mass, xsub. cbn [xadd xmul xopp]. rewrite xeqb_ne by lra. now rewrite xdiv_fin' by lra. Qed.

Theorem chieff_between a b x y : 0 < a -> 0 < b ->
  exists e, chieff (Fin a) (Fin b) (Fin x) (Fin y) = Fin e /\ Rmin x y <= e <= Rmax x y.
Proof.
  intros Ha Hb. rewrite chieff_fin by lra. eexists. split; [reflexivity|].
  assert (Hl := Rmin_l x y). assert (Hr := Rmin_r x y). assert (Kl := Rmax_l x y). assert (Kr := Rmax_r x y).
  split; apply (Rmult_le_reg_r (a + b)); try lra;
    replace ((a * x + b * y) / (a + b) * (a + b)) with (a * x + b * y) by (field; lra); nra.
Qed.
Theorem spins_recovered a b x y : 0 < a -> 0 < b ->
  chi1z_chi2z (Fin a) (Fin b) (chieff (Fin a) (Fin b) (Fin x) (Fin y)) (chiminus (Fin a) (Fin b) (Fin x) (Fin y))
  = (Fin x, Fin y).
Proof.
  intros Ha Hb. rewrite chieff_fin, chiminus_fin by lra. unfold chi1z_chi2z, total_mass, xsub. cbn [xadd xmul xopp].
  rewrite !xdiv_fin' by lra. f_equal; f_equal; field; lra.
Qed.

Lemma sin_tilt_fin c : -1 <= c <= 1 -> sin_tilt (Fin c) = Fin (sqrt (1 - c * c)) /\ 0 <= sqrt (1 - c * c) <= 1.
Proof.
  intros H. unfold sin_tilt, xsub. cbn [xadd xmul xopp]. rewrite xsqrt_fin by nra. split; [reflexivity|].
  split; [apply sqrt_pos|]. apply Rle_trans with (sqrt 1); [apply sqrt_le_1_alt; nra|rewrite sqrt_1; lra].
Qed.
Theorem chi_p_range a1 c1 a2 c2 q :
  0 <= a1 <= 1 -> 0 <= a2 <= 1 -> -1 <= c1 <= 1 -> -1 <= c2 <= 1 -> 0 <= q <= 1 ->
  exists p, chi_p_from_components (Fin a1) (Fin c1) (Fin a2) (Fin c2) (Fin q) = Fin p /\ 0 <= p <= 1.
Proof.
  intros Ha1 Ha2 Hc1 Hc2 Hq. destruct (sin_tilt_fin c1 Hc1) as [E1 H1]. destruct (sin_tilt_fin c2 Hc2) as [E2 H2].
  unfold chi_p_from_components. rewrite E1, E2. cbn [xadd xmul]. rewrite xdiv_fin' by lra. cbn [xmul]. rewrite xmax_fin.
  eexists. split; [reflexivity|].
  assert (Hk : 0 <= (3 + 4 * q) / (4 + 3 * q) <= 1).
  { split; [apply Rmult_le_pos; [lra|left; apply Rinv_0_lt_compat; lra]|].
    apply (Rmult_le_reg_r (4 + 3 * q)); [lra|].
    replace ((3 + 4 * q) / (4 + 3 * q) * (4 + 3 * q)) with (3 + 4 * q) by (field; lra). lra. }
  set (k := (3 + 4 * q) / (4 + 3 * q)) in *.
  assert (M : forall x y, 0 <= x <= 1 -> 0 <= y <= 1 -> 0 <= x * y <= 1) by (intros; split; nra).
  assert (0 <= a1 * sqrt (1 - c1 * c1) <= 1) by auto.
  assert (0 <= k * q * a2 * sqrt (1 - c2 * c2) <= 1) by auto.
  unfold Rmax. destruct (Rle_dec _ _); lra.
Qed.

(** ** polar and spherical coordinates *)
Lemma sqrt_sum_pos x y : x <> 0 \/ y <> 0 -> 0 < sqrt (x * x + y * y).
Proof. intros H. apply sqrt_lt_R0. destruct H; nra. Qed.

Lemma sqrt_ratio x y : 0 < x -> sqrt (1 + Rsqr (y / x)) = sqrt (x * x + y * y) / x.
Proof.
  intros H. replace (1 + Rsqr (y / x)) with ((x * x + y * y) / (x * x)) by (unfold Rsqr; field; lra).
  rewrite sqrt_div_alt by nra. now rewrite sqrt_square by lra.
Qed.
Lemma cos_atan2 y x : x <> 0 \/ y <> 0 -> cos (atan2 y x) = x / sqrt (x * x + y * y).
Proof.
  intros H. pose proof (sqrt_sum_pos x y H) as Hs. unfold atan2.
  destruct (Rlt_dec 0 x) as [Hx|Hx].
  - rewrite cos_atan, sqrt_ratio by auto. field. lra.
  - assert (Hneg : x < 0 -> cos (atan (y / x)) = - x / sqrt (x * x + y * y)).
    { intros Hx'. rewrite cos_atan. replace (Rsqr (y / x)) with (Rsqr (y / - x)) by (unfold Rsqr; field; lra).
      rewrite sqrt_ratio by lra. replace (- x * - x + y * y) with (x * x + y * y) by ring. field. lra. }
    destruct (Rlt_dec x 0) as [Hx'|Hx'].
    + destruct (Rle_dec 0 y); rewrite ?cos_plus, ?cos_minus, cos_PI, sin_PI, Hneg by auto; field; lra.
    + assert (x = 0) by lra. subst x. replace (0 / sqrt (0 * 0 + y * y)) with 0 by (field; lra).
      destruct (Rlt_dec 0 y); [apply cos_PI2|]. destruct (Rlt_dec y 0); [rewrite cos_neg; apply cos_PI2|].
      exfalso. destruct H; lra.
Qed.
Lemma sin_atan2 y x : x <> 0 \/ y <> 0 -> sin (atan2 y x) = y / sqrt (x * x + y * y).
Proof.
  intros H. pose proof (sqrt_sum_pos x y H) as Hs. unfold atan2.
  destruct (Rlt_dec 0 x) as [Hx|Hx].
  - rewrite sin_atan, sqrt_ratio by auto. field. lra.
  - assert (Hneg : x < 0 -> sin (atan (y / x)) = - y / sqrt (x * x + y * y)).
    { intros Hx'. rewrite sin_atan. replace (Rsqr (y / x)) with (Rsqr (y / - x)) by (unfold Rsqr; field; lra).
      rewrite sqrt_ratio by lra. replace (- x * - x + y * y) with (x * x + y * y) by ring. field. lra. }
    destruct (Rlt_dec x 0) as [Hx'|Hx'].
    + destruct (Rle_dec 0 y); rewrite ?sin_plus, ?sin_minus, cos_PI, sin_PI, Hneg by auto; field; lra.
    + assert (x = 0) by lra. subst x. replace (0 * 0 + y * y) with (Rsqr y) by (unfold Rsqr; ring).
      rewrite sqrt_Rsqr_abs.
      destruct (Rlt_dec 0 y); [rewrite sin_PI2, Rabs_pos_eq by lra; field; lra|].
      destruct (Rlt_dec y 0); [|exfalso; destruct H; lra].
      rewrite sin_neg, sin_PI2. rewrite Rabs_left by lra. field. lra.
Qed.

Theorem polar_round_trip x y : x <> 0 \/ y <> 0 ->
  polar_to_cart (fst (cart_to_polar x y)) (snd (cart_to_polar x y)) = (x, y).
Proof.
  intros H. pose proof (sqrt_sum_pos x y H). unfold cart_to_polar, polar_to_cart. cbn [fst snd].
  rewrite cos_atan2, sin_atan2 by auto. f_equal; field; lra.
Qed.

Theorem spherical_round_trip x y z : x <> 0 \/ y <> 0 \/ z <> 0 ->
  let '(r, t, p) := cart_to_spherical x y z in spherical_to_cart r t p = (x, y, z).
Proof.
  intros H. unfold cart_to_spherical, spherical_to_cart.
  set (r := sqrt (x * x + y * y + z * z)).
  assert (Hs : 0 < x * x + y * y + z * z) by (destruct H as [H|[H|H]]; nra).
  assert (Hr : 0 < r) by (apply sqrt_lt_R0; auto).
  assert (Hrr : r * r = x * x + y * y + z * z) by (apply sqrt_sqrt; lra).
  destruct (Req_EM_T r 0) as [|_]; [lra|].
  assert (Hz : -1 <= z / r <= 1).
  { assert (- r <= z <= r) by nra. split; apply (Rmult_le_reg_r r); auto;
      replace (z / r * r) with z by (field; lra); lra. }
  rewrite sin_acos, cos_acos by auto.
  assert (Hsin : r * sqrt (1 - (z / r)²) = sqrt (x * x + y * y)).
  { rewrite <- (sqrt_square r) at 1 by lra. rewrite <- sqrt_mult_alt by nra. f_equal.
    unfold Rsqr. replace (r * r * (1 - z / r * (z / r))) with (r * r - z * z) by (field; lra). rewrite Hrr. ring. }
  rewrite Hsin. destruct (Req_dec x 0) as [Ex|Ex]; [destruct (Req_dec y 0) as [Ey|Ey]|].
  - subst x y. rewrite !Rmult_0_l, Rplus_0_l, sqrt_0, !Rmult_0_l. f_equal. field. lra.
  - assert (Hp := sqrt_sum_pos x y (or_intror Ey)). rewrite cos_atan2, sin_atan2 by auto.
    f_equal; [f_equal; field; lra|field; lra].
  - assert (Hp := sqrt_sum_pos x y (or_introl Ex)). rewrite cos_atan2, sin_atan2 by auto.
    f_equal; [f_equal; field; lra|field; lra].
Qed.

Theorem atan2_range y x : - PI <= atan2 y x <= PI.
Proof.
  pose proof PI_RGT_0. pose proof (atan_bound (y / x)) as Hb. unfold atan2.
  destruct (Rlt_dec 0 x); [lra|]. destruct (Rlt_dec x 0) as [Hx|].
  - destruct (Rle_dec 0 y) as [Hy|Hy].
    + assert (atan (y / x) <= 0); [|lra]. rewrite <- atan_0. destruct (Req_dec y 0) as [->|].
      * unfold Rdiv. rewrite Rmult_0_l. lra.
      * left. apply atan_increasing. assert (/ x < 0) by now apply Rinv_lt_0_compat. unfold Rdiv. nra.
    + assert (0 <= atan (y / x)); [|lra]. rewrite <- atan_0. left. apply atan_increasing.
      assert (/ x < 0) by now apply Rinv_lt_0_compat. unfold Rdiv. nra.
  - destruct (Rlt_dec 0 y); [lra|]. destruct (Rlt_dec y 0); lra.
Qed.
