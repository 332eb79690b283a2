(** Properties C35-C38, C66, C67: mass distributions, the smoothing taper, truncated normals. *)
From Coq Require Import Reals Lra Lia List Bool.
From Coquelicot Require Import Coquelicot.
From Verif Require Import Model_X Spec_X Proofs_X Proofs_Transform Spec_Density Model_Powerlaw Proofs_Powerlaw Model_Gauss Proofs_Gauss.
From Verif Require Import Model_Constraints Model_Mass Proofs_Mass Proofs_MassGrid.
Import ListNotations.
Open Scope R_scope.

(** C35 *)
Theorem C35_primary_ratio_normalised : forall alpha beta mmin mmax, 0 < mmin < mmax ->
  integrates_to_2d (pmr_log_prob alpha beta mmin mmax) mmin mmax (fun m1 => mmin / m1) (fun _ => 1) 1.
Proof. exact pmr_normalised. Qed.
Print Assumptions C35_primary_ratio_normalised.

(** the same with argument validation, and the density is zero outside the region *)
Theorem C35_validated_normalised : forall alpha beta mmin mmax, 0 < mmin < mmax ->
  integrates_to_2d (pmr_validated alpha beta mmin mmax) mmin mmax (fun m1 => mmin / m1) (fun _ => 1) 1
  /\ forall m1 q, 0 < m1 -> ~ (mmin <= m1 <= mmax /\ mmin / m1 <= q <= 1) ->
       wexp (pmr_validated alpha beta mmin mmax m1 q) = 0.
Proof.
  intros alpha beta mmin mmax H. split.
  - destruct (pmr_normalised alpha beta mmin mmax H) as (g & Hg & Hi). exists g. split; [|exact Hi].
    intros m1 Hm. apply (is_RInt_ext (fun q => wexp (pmr_log_prob alpha beta mmin mmax m1 q))); [|now apply Hg].
    assert (Hl : mmin / m1 <= 1) by (apply Rle_div_l; lra).
    rewrite Rmin_left, Rmax_right by exact Hl. intros q Hq. unfold pmr_validated, validated.
    replace (mass_ratio_mass_sandwich _ _ _ _) with true; [reflexivity|]. symmetry.
    apply pmr_sandwich; lra.
  - intros m1 q Hm1 Hout. unfold pmr_validated, validated.
    destruct (mass_ratio_mass_sandwich _ _ _ _) eqn:E; [|reflexivity].
    apply pmr_sandwich in E; [|lra|lra]. destruct (Rlt_dec m1 mmin).
    + exfalso. assert (A : mmin / m1 <= 1) by lra. apply Rle_div_l in A; lra.
    + exfalso. apply Hout. lra.
Qed.
Print Assumptions C35_validated_normalised.

(** power -alpha in the primary mass, beta in the ratio *)
Theorem C35_shape : forall alpha beta mmin mmax m1, 0 < mmin < mmax -> mmin < m1 ->
  is_RInt (fun q => wexp (pmr_log_prob alpha beta mmin mmax m1 q)) (mmin / m1) 1
          (wexp (powerlaw_log_prob m1 (- alpha) mmin mmax))
  /\ forall q q', 0 < q -> 0 < q' ->
       wexp (pmr_log_prob alpha beta mmin mmax m1 q) * Rpower q' beta
       = wexp (pmr_log_prob alpha beta mmin mmax m1 q') * Rpower q beta.
Proof.
  intros alpha beta mmin mmax m1 H Hm.
  assert (Hl : 0 < mmin / m1 < 1).
  { split; [apply Rdiv_lt_0_compat; lra|apply Rlt_div_l; lra]. }
  assert (V : forall q, 0 < q -> wexp (pmr_log_prob alpha beta mmin mmax m1 q)
     = wexp (powerlaw_log_prob m1 (- alpha) mmin mmax) * wexp (powerlaw_log_prob q beta (mmin / m1) 1)).
  { intros q Hq. unfold pmr_log_prob. destruct (Rle_dec m1 mmin); [lra|].
    rewrite !log_prob_fin by lra. cbn [xadd wexp]. apply exp_plus. }
  split.
  - apply is_RInt_ext with (fun q => wexp (powerlaw_log_prob m1 (- alpha) mmin mmax) * wexp (powerlaw_log_prob q beta (mmin / m1) 1)).
    + rewrite Rmin_left, Rmax_right by lra. intros q Hq. symmetry. apply V. lra.
    + eapply is_RInt_scal_R; [apply (powerlaw_normalised beta (mmin / m1) 1 Hl)|]. ring.
  - intros q q' Hq Hq'. rewrite !V by auto. rewrite !(density_value _ beta) by auto. unfold Rdiv. ring.
Qed.
Print Assumptions C35_shape.

Example C35_nonvacuous : 0 < 5 < 100 /\ pmr_validated 2 1 5 100 10 (1/4) = NInf
  /\ exists r, pmr_validated 2 1 5 100 10 (3/4) = Fin r.
Proof.
  split; [lra|]. split.
  - unfold pmr_validated, validated. destruct (mass_ratio_mass_sandwich _ _ _ _) eqn:E; auto.
    apply pmr_sandwich in E; lra.
  - unfold pmr_validated, validated.
    replace (mass_ratio_mass_sandwich _ _ _ _) with true by (symmetry; apply pmr_sandwich; lra).
    unfold pmr_log_prob. destruct (Rle_dec 10 5); [lra|]. rewrite !log_prob_fin by lra. eexists. reflexivity.
Qed.

(** C36 *)
Theorem C36_broken_power_law_normalised : forall a1 a2 mmin mmax mbreak, 0 < mmin < mbreak -> mbreak < mmax ->
  integrates_to (fun m => broken_powerlaw_log_prob m a1 a2 mmin mmax mbreak) mmin mmax 1.
Proof. exact broken_normalised. Qed.
Print Assumptions C36_broken_power_law_normalised.

(** continuous everywhere on the positive axis, the break included *)
Theorem C36_broken_power_law_continuous : forall a1 a2 mmin mmax mbreak, 0 < mmin < mbreak -> mbreak < mmax ->
  forall m, 0 < m -> continuous (fun m => wexp (broken_powerlaw_log_prob m a1 a2 mmin mmax mbreak)) m.
Proof. exact broken_continuous. Qed.
Print Assumptions C36_broken_power_law_continuous.

(** power -a1 below the break and -a2 above it *)
Theorem C36_shape : forall a1 a2 mmin mmax mbreak, 0 < mmin < mbreak -> mbreak < mmax ->
  forall m m', 0 < m -> 0 < m' ->
  (m < mbreak -> m' < mbreak ->
   wexp (broken_powerlaw_log_prob m a1 a2 mmin mmax mbreak) * Rpower m a1
   = wexp (broken_powerlaw_log_prob m' a1 a2 mmin mmax mbreak) * Rpower m' a1)
  /\ (mbreak <= m -> mbreak <= m' ->
   wexp (broken_powerlaw_log_prob m a1 a2 mmin mmax mbreak) * Rpower m a2
   = wexp (broken_powerlaw_log_prob m' a1 a2 mmin mmax mbreak) * Rpower m' a2).
Proof.
  intros a1 a2 mmin mmax mb H H' m m' Hm Hm'.
  assert (K : forall x a, 0 < x -> Rpower (mb / x) a * Rpower x a = Rpower mb a).
  { intros x a Hx. rewrite (Rpower_ratio mmin mb H x a Hx). rewrite Rmult_assoc, <- Rpower_plus.
    replace (- a + a) with 0 by ring. rewrite Rpower_O by auto. ring. }
  split; intros A B; rewrite !broken_density by auto;
    destruct (Rlt_dec m mb), (Rlt_dec m' mb); try lra.
  - unfold Rdiv. rewrite !Rmult_assoc, !(Rmult_comm (/ _) (Rpower _ _)), <- !Rmult_assoc.
    fold (Rdiv mb m). fold (Rdiv mb m'). rewrite !K by auto. reflexivity.
  - unfold Rdiv. rewrite !Rmult_assoc, !(Rmult_comm (/ _) (Rpower _ _)), <- !Rmult_assoc.
    fold (Rdiv mb m). fold (Rdiv mb m'). rewrite !K by auto. reflexivity.
Qed.
Print Assumptions C36_shape.

Example C36_nonvacuous : 0 < 5 < 35 /\ 35 < 100 /\ exists r, broken_powerlaw_log_prob 35 (3/2) 5 5 100 35 = Fin r.
Proof. split; [lra|]. split; [lra|]. rewrite broken_fin by lra. eexists. reflexivity. Qed.

(** C37 *)
Theorem C37_taper_window : forall S, (forall x, S x = wexp (log_planck_taper_window x)) ->
  (forall x, x <= 0 -> S x = 0)
  /\ (forall x, 1 <= x -> S x = 1)
  /\ (forall x, 0 < x < 1 -> 0 < S x < 1)
  /\ (forall x y, 0 <= x -> x < y -> y <= 1 -> S x < S y)
  /\ (forall x, S x + S (1 - x) = 1)
  /\ (forall x : R, continuous S x).
Proof.
  intros S HS.
  assert (Z : forall x, x <= 0 -> S x = 0) by (intros x Hx; rewrite HS, window_low; auto).
  assert (O : forall x, 1 <= x -> S x = 1).
  { intros x Hx. rewrite HS, window_high by auto. apply exp_0. }
  assert (I : forall x, 0 < x < 1 -> 0 < S x < 1) by (intros x Hx; rewrite HS; now apply window_range).
  split; [exact Z|]. split; [exact O|]. split; [exact I|]. split; [|split].
  - intros x y [Hx| <-] Hxy [Hy| ->].
    + rewrite !HS. now apply window_increasing.
    + rewrite (O 1) by lra. apply I. lra.
    + rewrite (Z 0) by lra. apply I. lra.
    + rewrite (Z 0), (O 1); lra.
  - intros x. rewrite !HS. apply window_complement.
  - intros x. apply continuous_ext with window; [intros y; symmetry; apply HS|apply window_continuous].
Qed.
Print Assumptions C37_taper_window.

(** the log window is finite or -inf, never NaN or +inf, and it is the Planck taper *)
Theorem C37_taper_values : forall x, fin_or_ninf (log_planck_taper_window x)
  /\ (0 < x < 1 -> wexp (log_planck_taper_window x) = / (1 + exp (1 / x + 1 / (x - 1)))).
Proof.
  intros x. split; [apply taper_fin|]. intros Hx. change (window x = / (1 + exp (1 / x + 1 / (x - 1)))). rewrite (window_inside x Hx).
  unfold Rdiv. now rewrite !Rmult_1_l.
Qed.
Print Assumptions C37_taper_values.

Example C37_nonvacuous : wexp (log_planck_taper_window (1/2)) = 1/2 /\ 0 < 1/2 < 1.
Proof.
  split; [|lra]. pose proof (window_complement (1/2)) as H. replace (1 - 1/2) with (1/2) in H by field.
  unfold window in H. lra.
Qed.

(** C38 *)
Theorem C38_truncnorm_normalised : forall loc scale low high, 0 < scale -> low < high ->
  integrates_to (fun x => truncnorm_logpdf x loc scale low high) low high 1
  /\ forall x, x < low \/ high < x -> wexp (truncnorm_logpdf x loc scale low high) = 0.
Proof.
  intros loc scale low high Hs Hl. split; [now apply truncnorm_normalised|].
  intros x Hx. now rewrite truncnorm_outside.
Qed.
Print Assumptions C38_truncnorm_normalised.

(** all three ways of computing the normaliser, chosen by position, give the same number *)
Theorem C38_branches_agree : forall aa bb, aa < bb ->
  exists r, truncnorm_norm_left aa bb = Fin r /\ truncnorm_norm_right aa bb = Fin r /\ truncnorm_norm_central aa bb = Fin r
    /\ truncnorm_log_norm aa bb = Fin r.
Proof.
  intros aa bb H. destruct (norm_branches aa bb H) as (A & B & C). eexists. repeat split; eauto.
  now apply truncnorm_log_norm_fin.
Qed.
Print Assumptions C38_branches_agree.

(** the shape is the normal density *)
Theorem C38_shape : forall loc scale low high x y, 0 < scale -> low < high -> low <= x <= high -> low <= y <= high ->
  wexp (truncnorm_logpdf x loc scale low high)
  = wexp (truncnorm_logpdf y loc scale low high) * exp (((y - loc)² - (x - loc)²) / (2 * scale²)).
Proof.
  intros loc scale low high x y Hs Hl Hx Hy. rewrite !truncnorm_density by auto. unfold norm_pdf, phi.
  replace (- ((x - loc) / scale * ((x - loc) / scale) / 2))
    with (- ((y - loc) / scale * ((y - loc) / scale) / 2) + ((y - loc)² - (x - loc)²) / (2 * scale²))
    by (unfold Rsqr; field; lra).
  rewrite exp_plus. unfold Rdiv. ring.
Qed.
Print Assumptions C38_shape.

(** a scale that is not positive gives no density anywhere *)
Theorem C38_scale_not_positive : forall loc scale low high x, scale <= 0 ->
  truncnorm_logpdf x loc scale low high = NInf.
Proof.
  intros loc scale low high x Hs. unfold truncnorm_logpdf.
  destruct (Rlt_dec x low); [reflexivity|]. destruct (Rlt_dec high x); [reflexivity|].
  destruct (Rle_dec scale 0); [reflexivity|contradiction].
Qed.
Print Assumptions C38_scale_not_positive.

Example C38_nonvacuous : exists r, truncnorm_logpdf 1 3 2 0 2 = Fin r /\ (2 - 3) / 2 <= 0.
Proof. rewrite truncnorm_fin by lra. eexists. split; [reflexivity|lra]. Qed.

(** C66 *)
Theorem C66_wysocki_normalised : forall alpha mmin mmax, 0 < mmin < mmax ->
  integrates_to_2d (wysocki_log_prob alpha mmin mmax) mmin mmax (fun _ => mmin) (fun m1 => m1) 1
  /\ forall m1 m2, mmin < m1 -> m2 < mmin \/ m1 < m2 -> wexp (wysocki_log_prob alpha mmin mmax m1 m2) = 0.
Proof.
  intros alpha mmin mmax H. split; [now apply wysocki_normalised|].
  intros m1 m2 H1 H2. now rewrite wysocki_outside.
Qed.
Print Assumptions C66_wysocki_normalised.

(** given the primary the secondary is uniform *)
Theorem C66_wysocki_uniform_secondary : forall alpha mmin mmax m1 m2 m2', 0 < mmin < mmax -> mmin < m1 ->
  mmin <= m2 <= m1 -> mmin <= m2' <= m1 ->
  wysocki_log_prob alpha mmin mmax m1 m2 = wysocki_log_prob alpha mmin mmax m1 m2'.
Proof.
  intros. unfold wysocki_log_prob, uniform_logpdf.
  destruct (Rlt_dec (mmin + (m1 - mmin)) m2), (Rlt_dec (mmin + (m1 - mmin)) m2'), (Rlt_dec m2 mmin), (Rlt_dec m2' mmin);
    try lra; reflexivity.
Qed.
Print Assumptions C66_wysocki_uniform_secondary.

Theorem C66_samples_in_support : forall alpha beta mmin mmax u1 u2, 0 < mmin < mmax -> 0 <= u1 < 1 -> 0 <= u2 < 1 ->
  (exists m1 q, pmr_sample alpha beta mmin mmax u1 u2 = (Fin m1, Fin q)
     /\ mmin <= m1 <= mmax /\ mmin / m1 <= q <= 1)
  /\ (exists m1 m2, wysocki_sample alpha mmin mmax u1 u2 = (Fin m1, Fin m2) /\ mmin <= m2 <= m1 /\ m1 <= mmax).
Proof.
  intros. split; [now apply pmr_sample_in_support|now apply wysocki_sample_in_support].
Qed.
Print Assumptions C66_samples_in_support.

Example C66_nonvacuous : exists r, wysocki_log_prob 1 5 50 10 7 = Fin r.
Proof.
  unfold wysocki_log_prob, uniform_logpdf. rewrite log_prob_fin by lra.
  destruct (Rlt_dec (5 + (10 - 5)) 7); [lra|]. destruct (Rlt_dec 7 5); [lra|]. unfold xln.
  destruct (Rlt_dec 0 (10 - 5)); [|lra]. eexists. reflexivity.
Qed.

(** C67 *)
(** what is smoothed: taper times the mixture of a power law and a Gaussian *)
Theorem C67_smoothed_shape : forall alpha delta lambda loc mmax mmin scale m,
  0 < mmin < mmax -> 0 < delta -> 0 <= lambda <= 1 -> 0 < scale -> 0 < m ->
  wexp (stc_m1_unnorm alpha delta lambda loc mmax mmin scale m)
  = wexp (log_planck_taper_window ((m - mmin) / delta))
    * ((1 - lambda) * wexp (powerlaw_log_prob m (- alpha) mmin mmax)
       + lambda * (exp (- ((m - loc) / scale)² / 2) / sqrt (2 * PI) / scale)).
Proof.
  intros. rewrite stc_m1_wexp by auto. unfold stc_mix. rewrite density_value by lra.
  unfold norm_pdf, phi.
  replace (- ((m - loc) / scale)² / 2) with (- ((m - loc) / scale * ((m - loc) / scale) / 2)) by (unfold Rsqr; field; lra).
  ring.
Qed.
Print Assumptions C67_smoothed_shape.

(** SmoothedTwoComponentPrimaryMassRatio: 100 nodes across the smoothed edge and the exact integral
    of the rest make the primary-mass factor sum to one *)
Theorem C67_smoothed_primary_normalised : forall alpha delta lambda loc mmax mmin scale,
  0 < mmin -> 0 < delta -> mmin + delta < mmax -> 0 <= lambda <= 1 -> 0 < scale ->
  let density m1 := wexp (xsub (stc_m1_unnorm alpha delta lambda loc mmax mmin scale m1)
                               (stc_logZ alpha delta lambda loc mmax mmin scale)) in
  exists rest : R, is_RInt density (mmin + delta) mmax rest
    /\ trapezoid_sum density (nodes mmin (mmin + delta) 100) + rest = 1.
Proof.
  intros alpha delta lambda loc mmax mmin scale H1 H2 H3 H4 H5 density.
  destruct (stc_m1_normalised alpha delta lambda loc mmax mmin scale ltac:(lra) H2 H4 H5 H3) as (A & HA & HS).
  exists A. split; [exact HA|]. rewrite trapezoid_sum_eq, nodes_eq by lia. exact HS.
Qed.
Print Assumptions C67_smoothed_primary_normalised.

(** at each of its 1000 primary-mass nodes, summing the full density over 500 ratios from 0.005 to 1
    leaves the primary-mass factor, with argument validation on or off *)
Theorem C67_smoothed_ratio_normalised : forall alpha beta delta lambda loc mmax mmin scale validate m1,
  0 < mmin -> 0 < delta -> mmin + delta < mmax -> 0 <= lambda <= 1 -> 0 < scale ->
  In m1 (nodes mmin mmax 1000) -> mmin < m1 ->
  trapezoid_sum (fun q => wexp (stc_log_prob alpha beta delta lambda loc mmax mmin scale validate m1 q))
                (nodes (5 / 1000) 1 500)
  = wexp (xsub (stc_m1_unnorm alpha delta lambda loc mmax mmin scale m1)
               (stc_logZ alpha delta lambda loc mmax mmin scale)).
Proof.
  intros alpha beta delta lambda loc mmax mmin scale validate m1 H1 H2 H3 H4 H5 Hin Hlow.
  rewrite trapezoid_sum_eq, q_nodes. rewrite nodes_eq in Hin by lia.
  apply stc_q_normalised; auto; lra.
Qed.
Print Assumptions C67_smoothed_ratio_normalised.

(** given the primary, the ratio follows q^beta times the taper of the secondary mass *)
Theorem C67_smoothed_ratio_shape : forall beta delta mmax mmin validate m1 q, 0 < delta -> 0 < q -> 0 < mmin ->
  m1 <= mmax -> mmin <= m1 * q -> q <= 1 ->
  wexp (stc_q_unnorm beta delta mmax mmin validate m1 q)
  = Rpower q beta * wexp (log_planck_taper_window ((m1 * q - mmin) / delta)).
Proof.
  intros beta delta mmax mmin validate m1 q Hd Hq Hm H1 H2 H3. unfold stc_q_unnorm.
  assert (0 < m1) by nra.
  replace (mass_ratio_mass_sandwich _ _ _ _) with true.
  2:{ symmetry. apply pmr_sandwich; auto. repeat split; auto. apply Rle_div_l; lra. }
  replace (validated validate true) with (fun x : X => x) by (destruct validate; reflexivity).
  destruct (Rle_dec delta 0); [lra|]. rewrite xln_fin, xmul_fin, wexp_add by auto. reflexivity.
Qed.
Print Assumptions C67_smoothed_ratio_shape.

(** smoothing wider than the mass range is accepted by the argument constraints but gives NaN *)
Theorem C67_wide_smoothing_refuted : forall alpha beta delta lambda loc mmax mmin scale validate m1 q,
  0 < mmin < mmax -> mmax < mmin + delta ->
  m1 <= mmax -> mmin <= m1 * q -> 0 < q <= 1 ->
  stc_log_prob alpha beta delta lambda loc mmax mmin scale validate m1 q = NaN.
Proof.
  intros. apply stc_wide_nan; auto. intros _. assert (0 < m1) by nra.
  apply pmr_sandwich; [lra|auto|]. repeat split; try lra. apply Rle_div_l; lra.
Qed.
Print Assumptions C67_wide_smoothing_refuted.

(** BrokenPowerlawTwoPeak with equal minimum masses: the double trapezoid sum over the model's own
    grids is exactly one *)
Theorem C67_two_peak_normalised : forall a1 a2 beta loc1 loc2 scale1 scale2 d1 d2 l0 l1 mmin mmax mbreak validate,
  0 < mmin < mbreak -> mbreak < mmax -> 0 < d1 -> 0 < d2 -> 0 <= l0 -> 0 <= l1 -> l0 + l1 <= 1 ->
  0 < scale1 -> 0 < scale2 ->
  trapezoid_sum (fun m1 => trapezoid_sum
      (fun q => wexp (b2p_log_prob a1 a2 beta loc1 loc2 scale1 scale2 d1 d2 l0 l1 mmin mmin mmax mbreak validate m1 q))
      (nodes (5 / 1000) 1 500)) (nodes mmin mmax 1000) = 1.
Proof.
  intros. rewrite trapezoid_sum_eq, (nodes_eq mmin mmax 1000) by lia.
  eapply eq_trans;
    [|apply (b2p_normalised a1 a2 beta loc1 loc2 scale1 scale2 d1 d2 l0 l1 mmin mmin mmax mbreak validate); auto; lra].
  apply trapezoid_ext. intros m1 _. now rewrite trapezoid_sum_eq, q_nodes.
Qed.
Print Assumptions C67_two_peak_normalised.

(** with different minimum masses the two factors are normalised on their own grids *)
Theorem C67_two_peak_factors : forall a1 a2 beta loc1 loc2 scale1 scale2 d1 d2 l0 l1 m1min m2min mmax mbreak validate,
  0 < m1min < mbreak -> mbreak < mmax -> 0 < m2min < mmax -> 0 < d1 -> 0 < d2 ->
  0 <= l0 -> 0 <= l1 -> l0 + l1 <= 1 -> 0 < scale1 -> 0 < scale2 ->
  let primary m1 := wexp (xsub (b2p_m1_unnorm a1 a2 loc1 loc2 scale1 scale2 d1 l0 l1 m1min mmax mbreak m1)
                               (b2p_logZ a1 a2 loc1 loc2 scale1 scale2 d1 l0 l1 m1min mmax mbreak)) in
  trapezoid_sum primary (nodes m1min mmax 1000) = 1
  /\ forall m1, In m1 (nodes m2min mmax 1000) -> m2min < m1 ->
     trapezoid_sum
      (fun q => wexp (b2p_log_prob a1 a2 beta loc1 loc2 scale1 scale2 d1 d2 l0 l1 m1min m2min mmax mbreak validate m1 q))
      (nodes (5 / 1000) 1 500) = primary m1.
Proof.
  intros. split.
  - rewrite trapezoid_sum_eq, nodes_eq by lia. apply b2p_m1_normalised; auto.
  - intros m1 Hin Hlow. rewrite nodes_eq in Hin by lia. rewrite trapezoid_sum_eq, q_nodes.
    apply b2p_q_normalised; auto.
Qed.
Print Assumptions C67_two_peak_factors.

(** the primary mass of the two-peak model: taper times a mixture of the broken power law and two
    truncated normals *)
Theorem C67_two_peak_shape : forall a1 a2 loc1 loc2 scale1 scale2 d1 l0 l1 m1min mmax mbreak m,
  0 < m1min < mbreak -> mbreak < mmax -> 0 < d1 -> 0 <= l0 -> 0 <= l1 -> l0 + l1 <= 1 -> 0 < scale1 -> 0 < scale2 ->
  m1min <= m <= mmax ->
  wexp (b2p_m1_unnorm a1 a2 loc1 loc2 scale1 scale2 d1 l0 l1 m1min mmax mbreak m)
  = wexp (log_planck_taper_window ((m - m1min) / d1))
    * (l0 * wexp (broken_powerlaw_log_prob m a1 a2 m1min mmax mbreak)
       + l1 * wexp (truncnorm_logpdf m loc1 scale1 m1min mmax)
       + (1 - l0 - l1) * wexp (truncnorm_logpdf m loc2 scale2 m1min mmax)).
Proof.
  intros. rewrite b2p_m1_value by auto. rewrite wexp_xadd; [|apply taper_fin|exact I].
  cbn [wexp]. rewrite exp_ln by now apply b2p_mix_pos. unfold b2p_mix. f_equal.
  replace (1 - (l0 + l1)) with (1 - l0 - l1) by ring. reflexivity.
Qed.
Print Assumptions C67_two_peak_shape.

Example C67_nonvacuous : In 5 (nodes 5 100 1000) /\ In 100 (nodes 5 100 1000) /\ 5 + 5 < 100
  /\ 0 < wexp (stc_m1_unnorm 2 5 (1/2) 30 100 5 3 50).
Proof.
  split; [|split; [|split]].
  - rewrite nodes_eq by lia. pose proof (linspace_hd 5 100 1000 ltac:(lia)) as H.
    pose proof (linspace_length 5 100 1000) as L. destruct (linspace 5 100 1000); [discriminate|].
    simpl in H. left. exact H.
  - rewrite nodes_eq by lia. apply linspace_In_last. lia.
  - lra.
  - rewrite stc_m1_wexp by lra. apply Rmult_lt_0_compat; [apply stc_mix_pos; lra|].
    apply taper_pos. lra.
Qed.
