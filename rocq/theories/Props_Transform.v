(** C26-C31: mass, spin and coordinate conversions. *)
From Coq Require Import Reals Lra Lia List Bool Psatz.
From Verif Require Import Model_X Spec_X Proofs_X Model_Joint Model_Constraints Model_Transform Spec_Transform.
From Verif Require Import Proofs_Transform Proofs_Jacobian Model_Coordinates Proofs_Spins.
Import ListNotations.
Open Scope R_scope.

(** ** C26 *)
Theorem C26_masses_recovered :
  forall m1 m2, 0 < m2 -> m2 <= m1 ->
  Mc_eta_to_m1_m2 (chirp_mass (Fin m1) (Fin m2)) (symmetric_mass_ratio (Fin m1) (Fin m2)) = (Fin m1, Fin m2).
Proof. exact Mc_eta_round_trip. Qed.
Print Assumptions C26_masses_recovered.

Theorem C26_chirp_mass_and_eta_reproduced :
  forall Mc eta, 0 < Mc -> 0 < eta <= 1/4 ->
  exists m1 m2, Mc_eta_to_m1_m2 (Fin Mc) (Fin eta) = (Fin m1, Fin m2) /\ 0 < m2 <= m1
    /\ chirp_mass (Fin m1) (Fin m2) = Fin Mc /\ symmetric_mass_ratio (Fin m1) (Fin m2) = Fin eta.
Proof. exact Mc_eta_reproduced. Qed.
Print Assumptions C26_chirp_mass_and_eta_reproduced.

(** the values are the textbook ones: Mc^5 (m1+m2) = (m1 m2)^3, eta (m1+m2)^2 = m1 m2 *)
Theorem C26_textbook_values :
  forall m1 m2, 0 < m1 -> 0 < m2 ->
  exists Mc eta, chirp_mass (Fin m1) (Fin m2) = Fin Mc /\ symmetric_mass_ratio (Fin m1) (Fin m2) = Fin eta
    /\ 0 < Mc /\ Mc ^ 5 * (m1 + m2) = (m1 * m2) ^ 3 /\ eta * (m1 + m2) ^ 2 = m1 * m2
    /\ log_chirp_mass (Fin m1) (Fin m2) = Fin (ln Mc).
Proof.
  intros a b Ha Hb. rewrite chirp_mass_fin, eta_fin by lra. do 2 eexists. split; [reflexivity|]. split; [reflexivity|].
  split; [apply exp_pos|]. split; [|split; [field; lra|]].
  - rewrite <- Rpower_pow by apply exp_pos. unfold Rpower. rewrite ln_exp.
    rewrite <- (exp_ln (a + b)) at 2 by lra. rewrite <- exp_plus.
    transitivity (exp (3 * ln (a * b))); [f_equal; simpl INR; lra|].
    rewrite <- Rpower_pow by nra. unfold Rpower. f_equal. simpl INR. lra.
  - unfold log_chirp_mass, total_mass. cbn [xadd]. rewrite !xln_fin by lra. unfold xsub. cbn [xadd xmul xopp].
    rewrite ln_exp, ln_mult by lra. reflexivity.
Qed.
Print Assumptions C26_textbook_values.

(** eta_from_q agrees with the definition by component masses *)
Theorem C26_eta_from_mass_ratio :
  forall m1 m2, 0 < m1 -> 0 < m2 ->
  eta_from_q (mass_ratio (Fin m1) (Fin m2)) = symmetric_mass_ratio (Fin m1) (Fin m2).
Proof.
  intros a b Ha Hb. rewrite mass_ratio_fin, eta_fin by lra. assert (Hq : 0 < b / a) by now apply Rdiv_lt_0_compat.
  unfold eta_from_q. simpl xleb. destruct (Rle_dec (b / a) 0); [lra|].
  unfold xlog1p, xsub. cbn [xadd]. rewrite !xln_fin by lra. cbn [xadd xmul xopp xexp]. f_equal.
  replace (ln (b / a) + - (2 * ln (1 + b / a))) with (ln (b / a) - (ln (1 + b / a) + ln (1 + b / a))) by ring.
  rewrite <- ln_mult, <- ln_div by nra. rewrite exp_ln by (apply Rdiv_lt_0_compat; nra). field. lra.
Qed.
Print Assumptions C26_eta_from_mass_ratio.

Example C26_nonvacuous : exists m1 m2 : R, 0 < m2 < m1 /\ exists eta, 0 < eta < 1/4
  /\ symmetric_mass_ratio (Fin m1) (Fin m2) = Fin eta.
Proof. exists 30, 10. split; [lra|]. exists (3/16). split; [lra|]. rewrite eta_fin by lra. f_equal. field. Qed.

(** ** C27 *)
(** from a point of the domain forward and back *)
Theorem C27_inverse_of_forward :
  forall fmax,
  (forall m1 q, 0 < m1 -> returns_from (m1q_to_m1m2 fmax) [m1; q])
  /\ (forall m1 m2, 0 < m2 <= m1 ->
        returns_from (m1m2_to_m1q fmax) [m1; m2] /\ returns_from (m1m2_to_qm2 fmax) [m1; m2]
        /\ returns_from (m1m2_to_Mq fmax) [m1; m2] /\ returns_from (m1m2_to_Mc_eta fmax) [m1; m2]
        /\ returns_from (m1m2_to_Mc_delta fmax) [m1; m2])
  /\ (forall d, 0 <= d <= 1 -> returns_from delta_to_eta [d])
  /\ (forall m z, 0 <= z -> returns_from source_to_detected [m; z])
  /\ (forall m1 m2 z, 0 <= z -> returns_from component_source_to_detected [m1; m2; z]).
Proof.
  intros fmax. split; [intros; apply m1q_to_m1m2_from; lra|]. split; [|split; [|split]].
  - intros m1 m2 H. split; [apply m1m2_to_m1q_from; lra|]. split; [apply m1m2_to_qm2_from; lra|].
    split; [apply m1m2_to_Mq_from; lra|]. split; [now apply m1m2_to_Mc_eta_from|now apply m1m2_to_Mc_delta_from].
  - intros d H. apply delta_to_eta_from; lra.
  - intros m z H. apply source_to_detected_from. lra.
  - intros m1 m2 z H. apply component_source_to_detected_from. lra.
Qed.
Print Assumptions C27_inverse_of_forward.

(** from a point of the codomain back and forward *)
Theorem C27_forward_of_inverse :
  forall fmax,
  (forall m1 m2, 0 < m2 <= m1 -> returns_to (m1q_to_m1m2 fmax) [m1; m2])
  /\ (forall m1 q, 0 < m1 -> 0 < q <= 1 -> returns_to (m1m2_to_m1q fmax) [m1; q])
  /\ (forall q m2, 0 < m2 -> 0 < q <= 1 -> returns_to (m1m2_to_qm2 fmax) [q; m2])
  /\ (forall M q, 0 < M -> 0 < q <= 1 -> returns_to (m1m2_to_Mq fmax) [M; q])
  /\ (forall Mc eta, 0 < Mc -> 0 < eta <= 1/4 -> returns_to (m1m2_to_Mc_eta fmax) [Mc; eta])
  /\ (forall Mc d, 0 < Mc -> 0 <= d < 1 -> returns_to (m1m2_to_Mc_delta fmax) [Mc; d])
  /\ (forall e, 0 <= e <= 1/4 -> returns_to delta_to_eta [e])
  /\ (forall m z, 0 <= z -> returns_to source_to_detected [m; z])
  /\ (forall m1 m2 z, 0 <= z -> returns_to component_source_to_detected [m1; m2; z]).
Proof.
  intros fmax. repeat split; intros.
  - apply m1q_to_m1m2_to. lra.
  - apply m1m2_to_m1q_to. lra.
  - apply m1m2_to_qm2_to; lra.
  - apply m1m2_to_Mq_to; lra.
  - now apply m1m2_to_Mc_eta_to.
  - now apply m1m2_to_Mc_delta_to.
  - apply delta_to_eta_to. lra.
  - apply source_to_detected_to. lra.
  - apply component_source_to_detected_to. lra.
Qed.
Print Assumptions C27_forward_of_inverse.

(** the image of the domain, by coordinates *)
Theorem C27_image :
  forall m1 m2, 0 < m2 <= m1 ->
  (exists q, mass_ratio (Fin m1) (Fin m2) = Fin q /\ 0 < q <= 1 /\ q * m1 = m2)
  /\ (exists eta, symmetric_mass_ratio (Fin m1) (Fin m2) = Fin eta /\ 0 < eta <= 1/4)
  /\ (exists d, delta_m (Fin m1) (Fin m2) = Fin d /\ 0 <= d < 1 /\ d * (m1 + m2) = m1 - m2).
Proof.
  intros m1 m2 H. rewrite mass_ratio_fin, eta_fin, delta_fin by lra. split; [|split]; eexists; (split; [reflexivity|]).
  - split; [now apply ratio_range|field; lra].
  - apply eta_range; lra.
  - split; [now apply delta_range|field; lra].
Qed.
Print Assumptions C27_image.

(** the two mass-ratio transforms are inverse to each other *)
Theorem C27_mass_ratio_transforms_inverse :
  forall fmax x, t_call (m1q_to_m1m2 fmax) x = t_inverse (m1m2_to_m1q fmax) x
                 /\ t_inverse (m1q_to_m1m2 fmax) x = t_call (m1m2_to_m1q fmax) x.
Proof. intros fmax x. split; reflexivity. Qed.
Print Assumptions C27_mass_ratio_transforms_inverse.

Example C27_nonvacuous : 0 < 10 <= 30 /\ 0 < 3/16 <= 1/4 /\
  t_call (m1m2_to_Mq 1000) [Fin 30; Fin 10] = [Fin (30 + 10); Fin (10 / 30)].
Proof. split; [lra|]. split; [lra|]. cbn [t_call m1m2_to_Mq on2]. rewrite mass_ratio_fin by lra. reflexivity. Qed.

(** ** C28 *)
Theorem C28_reported_jacobian_is_true :
  forall fmax,
  (forall m1 q, 0 < m1 -> 0 < q < 1 -> true_jacobian2 (m1q_to_m1m2 fmax) m1 q)
  /\ (forall m1 m2, 0 < m2 < m1 ->
        true_jacobian2 (m1m2_to_m1q fmax) m1 m2 /\ true_jacobian2 (m1m2_to_qm2 fmax) m1 m2
        /\ true_jacobian2 (m1m2_to_Mq fmax) m1 m2 /\ true_jacobian2 (m1m2_to_Mc_eta fmax) m1 m2
        /\ true_jacobian2 (m1m2_to_Mc_delta fmax) m1 m2)
  /\ (forall d, 0 < d < 1 -> true_jacobian1 delta_to_eta d)
  /\ (forall m z, 0 < m -> 0 < z -> true_jacobian2 source_to_detected m z)
  /\ (forall m1 m2 z, 0 < m1 -> 0 < m2 -> 0 < z -> true_jacobian3 component_source_to_detected m1 m2 z).
Proof.
  intros fmax. split; [intros; now apply jacobian_m1q_to_m1m2|]. split; [|split; [|split]].
  - intros m1 m2 H. split; [apply jacobian_m1m2_to_m1q; lra|]. split; [apply jacobian_m1m2_to_qm2; lra|].
    split; [apply jacobian_m1m2_to_Mq; lra|]. split; [now apply jacobian_Mc_eta|apply jacobian_Mc_delta; lra].
  - intros d H. apply jacobian_delta_eta. lra.
  - intros m z Hm H. apply jacobian_source. lra.
  - intros m1 m2 z H1 H2 H. apply jacobian_component_source. lra.
Qed.
Print Assumptions C28_reported_jacobian_is_true.

(** on the equal-mass boundary, where (Mc, eta) has a vanishing determinant, -inf is reported *)
Theorem C28_equal_mass_boundary :
  forall fmax m, 0 < m ->
  t_ladj (m1m2_to_Mc_eta fmax) [Fin m; Fin m] (t_call (m1m2_to_Mc_eta fmax) [Fin m; Fin m]) = NInf.
Proof. exact jacobian_Mc_eta_equal. Qed.
Print Assumptions C28_equal_mass_boundary.

Example C28_nonvacuous :
  t_ladj (m1m2_to_Mq 1000) [Fin 30; Fin 10] (t_call (m1m2_to_Mq 1000) [Fin 30; Fin 10]) = Fin (ln (1 + 10 / 30) - ln 30).
Proof.
  cbn [t_ladj t_call m1m2_to_Mq on2 at_ nth]. rewrite mass_ratio_fin by lra. cbn [xadd]. rewrite !xln_fin by lra. reflexivity.
Qed.

(** ** C29.  The codomain of (m1, m2) -> (m1, q) is an open interval, although equal masses are in
    the domain; the domain of (m1, q) -> (m1, m2) contains q = 0, whose image is not positive. *)
Theorem C29_equal_masses_refuted :
  forall fmax, 1 < fmax -> exists p, t_domain (m1m2_to_m1q fmax) (fins p) = true
    /\ t_codomain (m1m2_to_m1q fmax) (t_call (m1m2_to_m1q fmax) (fins p)) = false
    /\ no_overflow fmax (t_call (m1m2_to_m1q fmax) (fins p)).
Proof.
  intros fmax Hf. exists [1; 1]. split; [apply pos_decreasing_2; do 2 eexists; split; [reflexivity|lra]|].
  cbn [fins map t_call t_codomain m1m2_to_m1q on2]. rewrite mass_ratio_fin by lra. split.
  - apply not_true_iff_false. rewrite open_intervals_2. lra.
  - constructor; [|constructor; [|constructor]]; apply xleb_le; lra.
Qed.
Print Assumptions C29_equal_masses_refuted.

Theorem C29_zero_mass_ratio_refuted :
  forall fmax, 1 < fmax -> exists p, t_domain (m1q_to_m1m2 fmax) (fins p) = true
    /\ t_codomain (m1q_to_m1m2 fmax) (t_call (m1q_to_m1m2 fmax) (fins p)) = false
    /\ no_overflow fmax (t_call (m1q_to_m1m2 fmax) (fins p)).
Proof.
  intros fmax Hf. exists [1; 0]. split; [apply intervals_2; lra|].
  change (t_call (m1q_to_m1m2 fmax) (fins [1; 0])) with (fins [1; 1 * 0]). split.
  - apply not_true_iff_false. change (t_codomain (m1q_to_m1m2 fmax)) with (pos_decreasing 2). rewrite pos_decreasing_2.
    intros (a & b & E & H). injection E as <- <-. lra.
  - constructor; [|constructor; [|constructor]]; apply xleb_le; lra.
Qed.
Print Assumptions C29_zero_mass_ratio_refuted.

(** the other seven transforms, for every accepted point whose image does not exceed the largest
    float; and the two above away from those boundaries *)
Theorem C29_codomain_partial :
  forall fmax,
  lands_in_codomain fmax (m1m2_to_Mc_eta fmax) /\ lands_in_codomain fmax (m1m2_to_Mc_delta fmax)
  /\ lands_in_codomain fmax (m1m2_to_qm2 fmax) /\ lands_in_codomain fmax (m1m2_to_Mq fmax)
  /\ lands_in_codomain fmax delta_to_eta /\ lands_in_codomain fmax source_to_detected
  /\ lands_in_codomain fmax component_source_to_detected
  /\ (forall m1 m2, 0 < m2 < m1 -> m1 < fmax ->
        t_codomain (m1m2_to_m1q fmax) (t_call (m1m2_to_m1q fmax) (fins [m1; m2])) = true)
  /\ (forall m1 q, 0 < m1 <= fmax -> 0 < q <= 1 ->
        t_codomain (m1q_to_m1m2 fmax) (t_call (m1q_to_m1m2 fmax) (fins [m1; q])) = true).
Proof.
  intros fmax. split; [apply codomain_Mc_eta|]. split; [apply codomain_Mc_delta|]. split; [apply codomain_qm2|].
  split; [apply codomain_Mq|]. split; [apply codomain_delta_eta|]. split; [apply codomain_source|].
  split; [apply codomain_component_source|]. split; intros; [now apply codomain_m1q|now apply codomain_m1m2].
Qed.
Print Assumptions C29_codomain_partial.

Example C29_nonvacuous : t_domain (m1m2_to_Mq 1000) (fins [30; 10]) = true
  /\ no_overflow 1000 (t_call (m1m2_to_Mq 1000) (fins [30; 10])).
Proof.
  split; [apply pos_decreasing_2; do 2 eexists; split; [reflexivity|lra]|].
  cbn [fins map t_call m1m2_to_Mq on2]. rewrite mass_ratio_fin by lra. unfold total_mass. cbn [xadd].
  constructor; [|constructor; [|constructor]]; apply xleb_le; lra.
Qed.

(** ** C30 *)
Theorem C30_effective_spin_between_components :
  forall m1 m2 x y, 0 < m1 -> 0 < m2 ->
  exists e, chieff (Fin m1) (Fin m2) (Fin x) (Fin y) = Fin e /\ Rmin x y <= e <= Rmax x y
            /\ e * (m1 + m2) = m1 * x + m2 * y.
Proof.
  intros m1 m2 x y H1 H2. destruct (chieff_between m1 m2 x y H1 H2) as (e & E & H). exists e. split; auto. split; auto.
  rewrite chieff_fin in E by lra. injection E as <-. field. lra.
Qed.
Print Assumptions C30_effective_spin_between_components.

Theorem C30_spins_recovered :
  forall m1 m2 x y, 0 < m1 -> 0 < m2 ->
  chi1z_chi2z (Fin m1) (Fin m2) (chieff (Fin m1) (Fin m2) (Fin x) (Fin y)) (chiminus (Fin m1) (Fin m2) (Fin x) (Fin y))
  = (Fin x, Fin y).
Proof. exact spins_recovered. Qed.
Print Assumptions C30_spins_recovered.

(** with magnitudes in [0, 1] and tilts, |chi_eff| <= 1 *)
Theorem C30_effective_spin_from_tilts :
  forall m1 m2 a1 a2 c1 c2, 0 < m1 -> 0 < m2 -> 0 <= a1 <= 1 -> 0 <= a2 <= 1 -> -1 <= c1 <= 1 -> -1 <= c2 <= 1 ->
  exists e, chieff_tilts (Fin m1) (Fin m2) (Fin a1) (Fin a2) (Fin c1) (Fin c2) = Fin e /\ -1 <= e <= 1.
Proof.
  intros m1 m2 a1 a2 c1 c2 H1 H2 Ha1 Ha2 Hc1 Hc2.
  destruct (chieff_between m1 m2 (a1 * c1) (a2 * c2) H1 H2) as (e & E & H). exists e. split; [exact E|].
  assert (-1 <= a1 * c1 <= 1) by (split; nra). assert (-1 <= a2 * c2 <= 1) by (split; nra).
  unfold Rmin, Rmax in H. destruct (Rle_dec (a1 * c1) (a2 * c2)); lra.
Qed.
Print Assumptions C30_effective_spin_from_tilts.

Theorem C30_precession_spin_range :
  forall a1 c1 a2 c2 q,
  0 <= a1 <= 1 -> 0 <= a2 <= 1 -> -1 <= c1 <= 1 -> -1 <= c2 <= 1 -> 0 <= q <= 1 ->
  exists p, chi_p_from_components (Fin a1) (Fin c1) (Fin a2) (Fin c2) (Fin q) = Fin p /\ 0 <= p <= 1.
Proof. exact chi_p_range. Qed.
Print Assumptions C30_precession_spin_range.

(** and it is the larger of the two in-plane terms *)
Theorem C30_precession_spin_value :
  forall a1 c1 a2 c2 q, -1 <= c1 <= 1 -> -1 <= c2 <= 1 -> 0 <= q ->
  chi_p_from_components (Fin a1) (Fin c1) (Fin a2) (Fin c2) (Fin q)
  = Fin (Rmax (a1 * sqrt (1 - c1 ^ 2)) ((3 + 4 * q) / (4 + 3 * q) * q * a2 * sqrt (1 - c2 ^ 2))).
Proof.
  intros a1 c1 a2 c2 q Hc1 Hc2 Hq. destruct (sin_tilt_fin c1 Hc1) as [E1 _]. destruct (sin_tilt_fin c2 Hc2) as [E2 _].
  unfold chi_p_from_components. rewrite E1, E2. cbn [xadd xmul]. rewrite xdiv_fin' by lra. cbn [xmul]. rewrite xmax_fin.
  replace (c1 ^ 2) with (c1 * c1) by ring. replace (c2 ^ 2) with (c2 * c2) by ring. reflexivity.
Qed.
Print Assumptions C30_precession_spin_value.

Example C30_nonvacuous : chieff (Fin 30) (Fin 10) (Fin (1/2)) (Fin (-(1/2))) = Fin (1/4).
Proof. rewrite chieff_fin by lra. f_equal. field. Qed.

(** ** C31 *)
Theorem C31_polar_round_trip :
  forall x y, x <> 0 \/ y <> 0 ->
  polar_to_cart (fst (cart_to_polar x y)) (snd (cart_to_polar x y)) = (x, y).
Proof. exact polar_round_trip. Qed.
Print Assumptions C31_polar_round_trip.

Theorem C31_spherical_round_trip :
  forall x y z, x <> 0 \/ y <> 0 \/ z <> 0 ->
  let '(r, t, p) := cart_to_spherical x y z in spherical_to_cart r t p = (x, y, z).
Proof. exact spherical_round_trip. Qed.
Print Assumptions C31_spherical_round_trip.

(** lengths and ranges of the angles *)
Theorem C31_lengths_and_ranges :
  forall x y z,
  (let '(r, t) := cart_to_polar x y in 0 <= r /\ r ^ 2 = x ^ 2 + y ^ 2 /\ - PI <= t <= PI)
  /\ (let '(r, t, p) := cart_to_spherical x y z in
      0 <= r /\ r ^ 2 = x ^ 2 + y ^ 2 + z ^ 2 /\ 0 <= t <= PI /\ - PI <= p <= PI).
Proof.
  intros x y z. cbn -[acos]. split; (split; [apply sqrt_pos|]).
  - split; [|apply atan2_range]. rewrite Rmult_1_r, sqrt_sqrt by nra. ring.
  - split; [rewrite Rmult_1_r, sqrt_sqrt by nra; ring|]. split; [|apply atan2_range].
    destruct (Req_EM_T _ _); [|apply acos_bound]. pose proof PI_RGT_0. lra.
Qed.
Print Assumptions C31_lengths_and_ranges.

Example C31_nonvacuous : fst (cart_to_polar (-3) 4) = 5 /\ (-3 <> 0 \/ 4 <> 0).
Proof. split; [|left; lra]. cbn. replace (-3 * -3 + 4 * 4) with (5 * 5) by ring. apply sqrt_square. lra. Qed.
