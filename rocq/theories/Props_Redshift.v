(** Property C71: redshift distributions. *)
From Coq Require Import Reals Lra Lia List Bool.
From Coquelicot Require Import Coquelicot.
From Verif Require Import Model_X Spec_X Proofs_X Spec_Density Model_Powerlaw Proofs_Powerlaw Model_Cosmology Proofs_Cosmology Props_Cosmology.
From Verif Require Import Model_Mass Proofs_Mass Proofs_MassGrid Model_Redshift Proofs_Redshift Proofs_Trapezoid Proofs_RedshiftIntegral.
Import ListNotations.
Open Scope R_scope.

(** the merger-rate evolution factors of the two classes *)
Inductive evolution : (R -> X) -> (R -> R) -> Prop :=
  | ev_powerlaw : forall kappa, evolution (powerlaw_log_psi kappa) (fun z => Rpower (1 + z) kappa)
  | ev_madau : forall kappa gamma z_peak, 0 < 1 + z_peak ->
      evolution (madau_log_psi kappa gamma z_peak)
        (fun z => Rpower (1 + z) kappa * (1 + Rpower (1 / (1 + z_peak)) gamma)
                  / (1 + Rpower ((1 + z) / (1 + z_peak)) gamma)).

Lemma evolution_fin psi f : evolution psi f -> forall z, 0 <= z -> exists r, psi z = Fin r.
Proof.
  intros [kappa|kappa gamma zp Hp] z Hz; eexists; [now apply powerlaw_psi_value|now apply madau_psi_value].
Qed.
Lemma Rpower_ratio a b g : 0 < a -> 0 < b -> Rpower (a / b) g = Rpower a g / Rpower b g.
Proof.
  intros Ha Hb. unfold Rdiv. rewrite <- Rpower_mult_distr by (auto; now apply Rinv_0_lt_compat).
  f_equal. unfold Rpower. rewrite ln_Rinv by auto. rewrite <- exp_Ropp. f_equal. ring.
Qed.
(** the factor is the documented function of the redshift and is one today *)
Theorem C71_evolution : forall psi f, evolution psi f ->
  (forall z, 0 <= z -> wexp (psi z) = f z /\ 0 < f z) /\ f 0 = 1.
Proof.
  intros psi f [kappa|kappa gamma zp Hp].
  - split.
    + intros z Hz. rewrite powerlaw_psi_value by auto. split; [reflexivity|apply Rpower_pos].
    + rewrite Rplus_0_r. unfold Rpower. rewrite ln_1, Rmult_0_r. apply exp_0.
  - pose proof (Rpower_pos (1 + zp) gamma) as P1.
    assert (One : forall k, Rpower 1 k = 1) by (intros; unfold Rpower; rewrite ln_1, Rmult_0_r; apply exp_0).
    split.
    + intros z Hz. pose proof (Rpower_pos (1 + z) gamma) as P2. pose proof (Rpower_pos (1 + z) kappa) as P3.
      rewrite madau_psi_value by auto. rewrite !Rpower_ratio by lra. rewrite One. split.
      * cbn [wexp]. unfold Rminus. rewrite !exp_plus, exp_Ropp, !exp_ln by lra. fold (Rpower (1 + z) kappa). field. lra.
      * apply Rdiv_lt_0_compat.
        -- apply Rmult_lt_0_compat; auto. assert (0 < 1 / Rpower (1 + zp) gamma) by (apply Rdiv_lt_0_compat; lra). lra.
        -- assert (0 < Rpower (1 + z) gamma / Rpower (1 + zp) gamma) by (apply Rdiv_lt_0_compat; lra). lra.
    + rewrite Rplus_0_r, One. assert (0 < Rpower (1 / (1 + zp)) gamma) by apply Rpower_pos. field. lra.
Qed.
Print Assumptions C71_evolution.

Section C71.
Variables c Ho Om Or Ol max_z dz z_max : R.
Let log_prob psi := redshift_log_prob c Ho Om Or Ol max_z dz psi z_max.
Let log_norm psi := redshift_log_norm c Ho Om Or Ol max_z dz psi z_max.
Let sample psi := redshift_sample c Ho Om Or Ol max_z dz psi z_max.

(** what log_prob returns: comoving volume per redshift, time dilation, rate evolution *)
Theorem C71_density : forall psi f validate z, 0 < c -> 0 < Ho -> 0 < max_z -> 0 < dz -> expanding Om Or Ol ->
  evolution psi f -> 0 <= z <= z_max ->
  wexp (log_prob psi validate z)
  = wexp (logdVcdz c Ho Om Or Ol z (z_to_Dc c Ho Om Or Ol max_z dz z)) / (1 + z) * f z.
Proof.
  intros psi f v z H1 H2 H3 H4 H5 He Hz.
  destruct (C71_evolution psi f He) as [Hf _].
  assert (E : wexp (log_prob psi v z) = wexp (log_spacetime c Ho Om Or Ol max_z dz psi z)).
  { unfold log_prob, redshift_log_prob, validated. destruct (Rle_dec 0 z); [|lra]. destruct (Rle_dec z z_max); [|lra].
    cbn [andb]. now destruct v. }
  rewrite E. destruct (evolution_fin psi f He z ltac:(lra)) as [r Er].
  destruct (Hf z ltac:(lra)) as [W _]. rewrite <- W.
  unfold log_spacetime. rewrite Er. unfold xlog1p. cbn [xadd]. rewrite xln_pos by lra. cbn [xopp].
  set (L := logdVcdz _ _ _ _ _ _ _).
  destruct L as [v'| | |]; cbn [xadd wexp]; try (unfold Rdiv; ring).
  rewrite !exp_plus, exp_Ropp, exp_ln by lra. unfold Rdiv. ring.
Qed.
(** dividing by log_norm makes it sum to one on the grid used for log_norm *)
Theorem C71_log_norm : forall psi f validate, 0 < c -> 0 < Ho -> 0 < max_z -> 0 < dz -> expanding Om Or Ol ->
  evolution psi f -> 0 < z_max ->
  exists L, log_norm psi = Fin L
    /\ trapezoid_sum (fun z => wexp (xsub (log_prob psi validate z) (log_norm psi))) (nodes 0 z_max 2500) = 1.
Proof.
  intros psi f v H1 H2 H3 H4 H5 He Hm. rewrite trapezoid_sum_eq, nodes_eq by lia.
  apply (redshift_normalised c Ho Om Or Ol max_z dz H1 H2 H3 H4 H5 psi (evolution_fin psi f He) z_max Hm v).
Qed.
(** log_prob itself is not normalised, although the class documents a normalised density: two
    power-law exponents never both give total one *)
Theorem C71_unnormalised_refuted : forall validate kappa kappa', 0 < c -> 0 < Ho -> 0 < max_z -> 0 < dz -> expanding Om Or Ol ->
  0 < z_max -> kappa < kappa' ->
  let total k := trapezoid_sum (fun z => wexp (log_prob (powerlaw_log_psi k) validate z)) (nodes 0 z_max 2500) in
  total kappa < total kappa'.
Proof.
  intros v k k' H1 H2 H3 H4 H5 Hm Hk total. unfold total. rewrite !trapezoid_sum_eq, nodes_eq by lia.
  assert (V : forall k z, 0 <= z <= z_max -> wexp (log_prob (powerlaw_log_psi k) v z)
     = wexp (logdVcdz c Ho Om Or Ol z (z_to_Dc c Ho Om Or Ol max_z dz z)) / (1 + z) * Rpower (1 + z) k).
  { intros k0 z Hz. apply (C71_density _ _ v z H1 H2 H3 H4 H5 (ev_powerlaw k0) Hz). }
  assert (M : forall z, 0 <= z -> Rpower (1 + z) k <= Rpower (1 + z) k').
  { intros z Hz. apply Rle_Rpower; lra. }
  apply trapezoid_lt.
  - apply linspace_inc; [auto|lia].
  - rewrite linspace_length. lia.
  - intros z Hin. apply linspace_range in Hin; [|auto|lia]. rewrite !V by lra. apply Rmult_le_compat_l; [|apply M; lra].
    apply Rmult_le_pos; [apply wexp_nonneg|]. left. apply Rinv_0_lt_compat. lra.
  - exists z_max. split; [apply linspace_In_last; lia|]. rewrite !V by lra. apply Rmult_lt_compat_l; [|apply Rpower_lt; lra].
    apply Rdiv_lt_0_compat; [|lra].
    assert (F : forall z, 0 <= z -> exists r, (fun _ : R => Fin 0) z = Fin r) by (intros; eexists; reflexivity).
    pose proof (ls_pos c Ho Om Or Ol max_z dz H1 H2 H3 H4 H5 (fun _ => Fin 0) F z_max Hm) as P.
    unfold log_spacetime in P. unfold xlog1p in P. cbn [xadd] in P. rewrite xln_pos in P by lra. cbn [xopp] in P.
    destruct (logdVcdz _ _ _ _ _ _ _) as [r| | |]; cbn [xadd wexp] in *; try lra. apply exp_pos.
Qed.
(** samples stay in the support, increase with the uniform draw, and invert the piecewise linear
    distribution function tabulated on 10000 nodes *)
Theorem C71_samples : forall psi f u, 0 < c -> 0 < Ho -> 0 < max_z -> 0 < dz -> expanding Om Or Ol ->
  evolution psi f -> 0 < z_max -> 0 <= u <= 1 ->
  0 <= sample psi u <= z_max
  /\ interp (sample psi u) (linspace 0 z_max 10000) (redshift_cdf c Ho Om Or Ol max_z dz psi z_max) = u
  /\ forall v, u < v -> v <= 1 -> sample psi u < sample psi v.
Proof.
  intros psi f u H1 H2 H3 H4 H5 He Hm Hu.
  destruct (sample_ok c Ho Om Or Ol max_z dz H1 H2 H3 H4 H5 psi (evolution_fin psi f He) z_max Hm u Hu) as [A B].
  split; [exact A|]. split; [exact B|]. intros v Huv Hv.
  apply (sample_increasing c Ho Om Or Ol max_z dz H1 H2 H3 H4 H5 psi (evolution_fin psi f He) z_max Hm); lra.
Qed.

(** ** against the integral of the density *)
(** the density changes by at most [w] between redshifts at most [h] apart *)
Definition varies_by (g : R -> R) (h w : R) : Prop :=
  forall x y, 0 <= x <= z_max -> 0 <= y <= z_max -> Rabs (x - y) <= h -> Rabs (g x - g y) <= w.

Lemma evolution_continuous : forall psi f, evolution psi f -> forall z, 0 <= z -> continuous f z.
Proof.
  intros psi f [kappa|kappa gamma zp Hp] z Hz.
  { apply (continuous_comp (fun z => 1 + z) (fun z => Rpower z kappa)); [|apply Rpower_continuous; lra].
    apply (continuous_plus (fun _ => 1) (fun z => z)); [apply continuous_const|apply continuous_id]. }
  apply (ex_derive_continuous (fun z => Rpower (1 + z) kappa * (1 + Rpower (1 / (1 + zp)) gamma) / (1 + Rpower ((1 + z) / (1 + zp)) gamma))).
  unfold Rpower. auto_derive. assert (0 < (1 + z) * / (1 + zp)) by (apply Rmult_lt_0_compat; [lra|now apply Rinv_0_lt_compat]).
  repeat split; try lra. apply Rgt_not_eq. match goal with |- _ > 0 => apply Rplus_lt_0_compat; [lra|apply exp_pos] end.
Qed.
Lemma log_prob_inside : forall psi v z, 0 <= z <= z_max ->
  wexp (log_prob psi v z) = wexp (log_spacetime c Ho Om Or Ol max_z dz psi z).
Proof.
  intros psi v z Hz. unfold log_prob, redshift_log_prob, validated. destruct (Rle_dec 0 z); [|lra]. destruct (Rle_dec z z_max); [|lra].
  cbn [andb]. now destruct v.
Qed.
Lemma log_prob_integral : forall psi v t, 0 <= t <= z_max ->
  RInt (fun z => wexp (log_prob psi v z)) 0 t = RInt (fun z => wexp (log_spacetime c Ho Om Or Ol max_z dz psi z)) 0 t.
Proof.
  intros psi v t Ht. apply RInt_ext. intros z Hz. rewrite Rmin_left, Rmax_right in Hz by lra. apply log_prob_inside. lra.
Qed.
(** the density has a finite positive integral over its support, and exp(log_norm) differs from it
    by at most z_max times the change of the density within one step of the grid *)
Theorem C71_log_norm_error : forall psi f validate w, 0 < c -> 0 < Ho -> 0 < max_z -> 0 < dz -> expanding Om Or Ol ->
  evolution psi f -> 0 < z_max ->
  let g := fun z => wexp (log_prob psi validate z) in
  varies_by g (z_max / 2499) w ->
  ex_RInt g 0 z_max /\ 0 < RInt g 0 z_max /\ Rabs (wexp (log_norm psi) - RInt g 0 z_max) <= w * z_max.
Proof.
  intros psi f v w H1 H2 H3 H4 H5 He Hm g Hw.
  assert (Ff : forall z, 0 <= z -> wexp (psi z) = f z) by (intros z Hz; now apply (C71_evolution psi f He)).
  pose proof (evolution_continuous psi f He) as Cf. pose proof (evolution_fin psi f He) as Fp.
  unfold g. rewrite log_prob_integral by lra. split; [|split].
  { apply ex_RInt_ext with (fun z => wexp (log_spacetime c Ho Om Or Ol max_z dz psi z)).
    { intros z Hz. rewrite Rmin_left, Rmax_right in Hz by lra. symmetry. apply log_prob_inside. lra. }
    apply (density_integrable c Ho Om Or Ol max_z dz H1 H2 H3 H4 H5 psi Fp f Ff Cf); lra. }
  { apply (density_total c Ho Om Or Ol max_z dz H1 H2 H3 H4 H5 psi Fp f Ff Cf z_max Hm). }
  apply (log_norm_error c Ho Om Or Ol max_z dz H1 H2 H3 H4 H5 psi Fp f Ff Cf z_max Hm).
  intros x y Hx Hy Hxy. specialize (Hw x y Hx Hy Hxy). unfold g in Hw. now rewrite !log_prob_inside in Hw by lra.
Qed.
(** both errors are small when the density is resolved: it changes as little as wished over short
    enough steps *)
Theorem C71_resolved : forall psi f validate, 0 < c -> 0 < Ho -> 0 < max_z -> 0 < dz -> expanding Om Or Ol ->
  evolution psi f -> 0 < z_max ->
  forall w, 0 < w -> exists h, 0 < h /\ varies_by (fun z => wexp (log_prob psi validate z)) h w.
Proof.
  intros psi f v H1 H2 H3 H4 H5 He Hm w Hw.
  assert (Ff : forall z, 0 <= z -> wexp (psi z) = f z) by (intros z Hz; now apply (C71_evolution psi f He)).
  pose proof (evolution_continuous psi f He) as Cf. pose proof (evolution_fin psi f He) as Fp.
  destruct (@Heine_cor2 (shape c Ho Om Or Ol max_z dz f) 0 z_max) with (eps := mkposreal w Hw) as [d Hd].
  { intros x Hx. apply continuity_pt_filterlim.
    apply shape_continuous; try assumption. lra. }
  exists (d / 2). pose proof (cond_pos d) as Pd. split; [lra|]. intros x y Hx Hy Hxy.
  rewrite !log_prob_inside by lra. rewrite !(density_shape c Ho Om Or Ol max_z dz H1 H2 H3 H4 H5 psi Fp f Ff) by lra.
  left. apply Hd; lra.
Qed.
(** a sample drawn with the uniform number [u] is the [u]-quantile of the density, up to twice that
    change relative to the mean of the density: the exact distribution function at the sample is
    within 2 w z_max / integral of [u] *)
Theorem C71_sampling_error : forall psi f validate w u, 0 < c -> 0 < Ho -> 0 < max_z -> 0 < dz -> expanding Om Or Ol ->
  evolution psi f -> 0 < z_max -> 0 <= u <= 1 ->
  let g := fun z => wexp (log_prob psi validate z) in
  varies_by g (z_max / 9999) w ->
  Rabs (RInt g 0 (sample psi u) / RInt g 0 z_max - u) <= 2 * w * z_max / RInt g 0 z_max.
Proof.
  intros psi f v w u H1 H2 H3 H4 H5 He Hm Hu g Hw.
  assert (Ff : forall z, 0 <= z -> wexp (psi z) = f z) by (intros z Hz; now apply (C71_evolution psi f He)).
  pose proof (evolution_continuous psi f He) as Cf. pose proof (evolution_fin psi f He) as Fp.
  destruct (C71_samples psi f u H1 H2 H3 H4 H5 He Hm Hu) as (B & _ & _).
  pose proof (density_total c Ho Om Or Ol max_z dz H1 H2 H3 H4 H5 psi Fp f Ff Cf z_max Hm) as T.
  assert (Hw0 : 0 <= w).
  { specialize (Hw 0 0). rewrite !Rminus_eq_0, Rabs_R0 in Hw. apply Hw; lra. }
  assert (E : forall u, 0 <= u <= 1 -> Rabs (RInt (fun z => wexp (log_spacetime c Ho Om Or Ol max_z dz psi z)) 0 (sample psi u)
    / RInt (fun z => wexp (log_spacetime c Ho Om Or Ol max_z dz psi z)) 0 z_max - u)
    <= w * (sample psi u + u * z_max) / RInt (fun z => wexp (log_spacetime c Ho Om Or Ol max_z dz psi z)) 0 z_max).
  { intros u' Hu'. apply (sample_error c Ho Om Or Ol max_z dz H1 H2 H3 H4 H5 psi Fp f Ff Cf z_max Hm w u' Hu').
    intros x y Hx Hy Hxy. rewrite ten_thousand_steps in Hxy. specialize (Hw x y Hx Hy Hxy). unfold g in Hw. now rewrite !log_prob_inside in Hw by lra. }
  specialize (E u Hu). unfold g. rewrite !log_prob_integral by lra.
  eapply Rle_trans; [exact E|]. unfold Rdiv. apply Rmult_le_compat_r; [left; now apply Rinv_0_lt_compat|].
  rewrite Rmult_assoc, (Rmult_comm 2), Rmult_assoc. apply Rmult_le_compat_l; [exact Hw0|].
  assert (u * z_max <= 1 * z_max) by (apply Rmult_le_compat_r; lra). lra.
Qed.
End C71.
Print Assumptions C71_density.
Print Assumptions C71_log_norm.
Print Assumptions C71_unnormalised_refuted.
Print Assumptions C71_samples.
Print Assumptions C71_resolved.
Print Assumptions C71_log_norm_error.
Print Assumptions C71_sampling_error.
Example C71_nonvacuous : expanding (3/10) 0 (7/10) /\ evolution (madau_log_psi 2 5 2) (fun z => Rpower (1 + z) 2 * (1 + Rpower (1 / (1 + 2)) 5)
                  / (1 + Rpower ((1 + z) / (1 + 2)) 5)).
Proof. split; [apply flat_expanding; lra|apply ev_madau; lra]. Qed.
