(** Properties C39, C40, C42, C68, C69: Beta conversions, the concentration check, mixing fractions,
    the skew-normal effective-spin model and the truncated-normal mixtures. *)
From Coq Require Import Reals Lra Lia List Bool.
From Coquelicot Require Import Coquelicot.
From Verif Require Import Model_X Spec_X Proofs_X Spec_Density Model_Gauss Model_Spin Proofs_Integral Proofs_Spin.
Import ListNotations.
Open Scope R_scope.

(** C39: (mean, variance) to concentrations and back.  The full claim needs variance <> 0 and
    variance <> (mean - low) (high - mean): see [C39_boundary_refuted]. *)
Theorem C39_concentrations_and_back : forall mean var loc scale, 0 < scale -> loc < mean < loc + scale -> var <> 0 ->
  var <> (mean - loc) * (loc + scale - mean) ->
  exists a b, beta_to_concentrations mean var loc scale = (Fin a, Fin b)
    /\ beta_to_mean_variance a b loc scale = (Fin mean, Fin var).
Proof. exact beta_back. Qed.
Print Assumptions C39_concentrations_and_back.
Theorem C39_moments_and_back : forall a b loc scale, 0 < a -> 0 < b -> 0 < scale ->
  exists m v, beta_to_mean_variance a b loc scale = (Fin m, Fin v)
    /\ loc < m < loc + scale /\ 0 < v < (m - loc) * (loc + scale - m)
    /\ beta_to_concentrations m v loc scale = (Fin a, Fin b).
Proof. exact beta_forth. Qed.
Print Assumptions C39_moments_and_back.
Theorem C39_positive_exactly : forall mean var loc scale, 0 < scale -> loc < mean < loc + scale -> 0 < var ->
  exists a b, beta_to_concentrations mean var loc scale = (Fin a, Fin b)
    /\ (0 < a <-> var < (mean - loc) * (loc + scale - mean))
    /\ (0 < b <-> var < (mean - loc) * (loc + scale - mean)).
Proof. exact beta_positive. Qed.
Print Assumptions C39_positive_exactly.
(** the pair returned is the mean and the variance of the density proportional to x^(a-1) (1-x)^(b-1) *)
Theorem C39_true_moments : forall a b, 1 < a -> 1 < b ->
  exists m v B, beta_to_mean_variance a b 0 1 = (Fin m, Fin v) /\ 0 < B
  /\ is_RInt (fun x => Rpower x (a - 1) * Rpower (1 - x) (b - 1)) 0 1 B
  /\ is_RInt (fun x => x * (Rpower x (a - 1) * Rpower (1 - x) (b - 1))) 0 1 (m * B)
  /\ is_RInt (fun x => (x - m) * (x - m) * (Rpower x (a - 1) * Rpower (1 - x) (b - 1))) 0 1 (v * B).
Proof. exact beta_true_moments. Qed.
Print Assumptions C39_true_moments.
Theorem C39_constructors_agree : forall mean var, var <> 0 ->
  beta_from_mean_var mean var = beta_to_concentrations mean var 0 1.
Proof. exact beta_constructors_agree. Qed.
Print Assumptions C39_constructors_agree.
(** at the largest variance the concentrations are zero and the way back is not a number *)
Theorem C39_boundary_refuted : forall mean loc scale, 0 < scale -> loc < mean < loc + scale ->
  beta_to_concentrations mean ((mean - loc) * (loc + scale - mean)) loc scale = (Fin 0, Fin 0)
  /\ beta_to_mean_variance 0 0 loc scale = (NaN, NaN).
Proof. exact beta_boundary. Qed.
Print Assumptions C39_boundary_refuted.
(** a negative variance is accepted and gives negative concentrations *)
Theorem C39_negative_variance : exists a b, beta_to_concentrations (1/2) (-1) 0 1 = (Fin a, Fin b) /\ a < 0 /\ b < 0.
Proof.
  rewrite to_concentrations_fin by lra. do 2 eexists. split; [reflexivity|]. split; lra.
Qed.
Print Assumptions C39_negative_variance.
Example C39_nonvacuous : 0 < 2 /\ 1 < 3/2 < 1 + 2 /\ 1/10 <> 0 /\ 1/10 <> (3/2 - 1) * (1 + 2 - 3/2).
Proof. repeat split; lra. Qed.
Example C39_value : beta_to_concentrations (1/4) (3/80) 0 1 = (Fin 1, Fin 3).
Proof. rewrite to_concentrations_fin by lra. f_equal; f_equal; lra. Qed.

(** C40 *)
Theorem C40_check_exact : forall mean var amin bmin, 0 < var ->
  exists a b, beta_from_mean_var mean var = (Fin a, Fin b)
    /\ (check_min_concentration mean var amin bmin = true <-> amin < a /\ bmin < b).
Proof. exact check_exact. Qed.
Print Assumptions C40_check_exact.
Example C40_accepts : check_min_concentration (1/4) (3/80) (9/10) (29/10) = true
  /\ check_min_concentration (1/4) (3/80) (9/10) 3 = false.
Proof.
  unfold check_min_concentration.
  destruct (Rlt_dec (3 / 80 * (9 / 10 + 1 / 4)) (1 / 4 * (1 / 4) * (1 - 1 / 4))); [|exfalso; lra].
  destruct (Rlt_dec (3 / 80 * (29 / 10 + 1 - 1 / 4)) (1 / 4 * ((1 - 1 / 4) * (1 - 1 / 4)))); [|exfalso; lra].
  destruct (Rlt_dec (3 / 80 * (3 + 1 - 1 / 4)) (1 / 4 * ((1 - 1 / 4) * (1 - 1 / 4)))); [exfalso; lra|].
  split; reflexivity.
Qed.

(** C42 *)
Theorem C42_fractions_sum : forall given,
  rsum (complete_fractions given) = 1 /\ length (complete_fractions given) = S (length given)
  /\ forall i, (i < length given)%nat -> nth_error (complete_fractions given) i = nth_error given i.
Proof.
  intros given. destruct (fractions_sum given) as [A B]. split; [exact A|]. split; [exact B|].
  intros i Hi. unfold complete_fractions. now apply nth_error_app1.
Qed.
Print Assumptions C42_fractions_sum.
Theorem C42_fractions_nonneg : forall given, List.Forall (fun x => 0 <= x) given -> rsum given <= 1 ->
  List.Forall (fun x => 0 <= x <= 1) (complete_fractions given).
Proof. exact fractions_nonneg. Qed.
Print Assumptions C42_fractions_nonneg.
Example C42_nonvacuous : List.Forall (fun x => 0 <= x) [1/2; 1/4] /\ rsum [1/2; 1/4] <= 1 /\ nth 2 (complete_fractions [1/2; 1/4]) 0 = 1/4.
Proof. split; [repeat (constructor; [lra|]); constructor|]. simpl. split; lra. Qed.
(** fractions that are each in [0, 1] may complete to a negative one *)
Theorem C42_negative_refuted : exists given, List.Forall (fun x => 0 <= x <= 1) given
  /\ exists x, In x (complete_fractions given) /\ x < 0.
Proof.
  exists [2/3; 2/3]. split; [repeat (constructor; [lra|]); constructor|].
  exists (1 - (0 + 2/3 + 2/3)). split; [simpl; tauto|lra].
Qed.
Print Assumptions C42_negative_refuted.

(** C68 *)
Theorem C68_skew_normalised : forall loc scale epsilon, 0 < scale -> -1 < epsilon < 1 ->
  integrates_to (skew_normal_log_prob loc scale epsilon) (-1) 1 1.
Proof. exact skew_normalised. Qed.
Print Assumptions C68_skew_normalised.
(** on either side of the peak the density is a Gaussian of width scale (1 + epsilon) or scale (1 - epsilon) *)
Theorem C68_two_widths : forall loc scale epsilon, 0 < scale -> -1 < epsilon < 1 ->
  (forall x y, -1 <= x <= 1 -> -1 <= y <= 1 -> x <= loc -> y <= loc ->
     wexp (skew_normal_log_prob loc scale epsilon x) * norm_pdf y loc (scale * (1 + epsilon))
     = wexp (skew_normal_log_prob loc scale epsilon y) * norm_pdf x loc (scale * (1 + epsilon)))
  /\ (forall x y, -1 <= x <= 1 -> -1 <= y <= 1 -> loc < x -> loc < y ->
     wexp (skew_normal_log_prob loc scale epsilon x) * norm_pdf y loc (scale * (1 - epsilon))
     = wexp (skew_normal_log_prob loc scale epsilon y) * norm_pdf x loc (scale * (1 - epsilon))).
Proof.
  intros loc scale eps Hs He.
  assert (A : 0 < scale * (1 + eps)) by (apply Rmult_lt_0_compat; lra).
  assert (B : 0 < scale * (1 - eps)) by (apply Rmult_lt_0_compat; lra).
  pose proof (skewN_pos loc scale eps Hs He).
  split; intros x y Hx Hy Lx Ly; rewrite !(proj2 (skew_value loc scale eps Hs He _)); cbv zeta.
  - destruct (Rle_dec x loc); [|lra]. destruct (Rle_dec y loc); [|lra]. cbn [side].
    rewrite !jt_value by auto. pose proof (mass_pos loc _ A). unfold Rdiv. ring.
  - destruct (Rle_dec x loc); [lra|]. destruct (Rle_dec y loc); [lra|]. cbn [side].
    rewrite !jt_value by auto. pose proof (mass_pos loc _ B). unfold Rdiv. ring.
Qed.
Print Assumptions C68_two_widths.
Theorem C68_zero_outside : forall loc scale epsilon x, 0 < scale -> -1 < epsilon < 1 -> x < -1 \/ 1 < x ->
  skew_normal_log_prob loc scale epsilon x = NInf.
Proof.
  intros loc scale eps x Hs He Hx. unfold skew_normal_log_prob. cbv zeta.
  pose proof (skewN_pos loc scale eps Hs He) as P. unfold skewN in P. cbn [side] in P.
  set (f := 1 + _ * eps). assert (Hf : 0 < f) by (unfold f; destruct (Rle_dec x loc); lra).
  assert (Hsf : 0 < / (scale * f)) by (apply Rinv_0_lt_compat, Rmult_lt_0_compat; lra).
  assert (E : jax_truncnorm_logpdf x (- (1 + loc) / (scale * f)) ((1 - loc) / (scale * f)) loc (scale * f) = NInf).
  { unfold jax_truncnorm_logpdf. destruct (Rlt_dec _ _) as [|N1]; [reflexivity|]. destruct (Rlt_dec _ _) as [|N2]; [reflexivity|].
    exfalso. destruct Hx; [apply N1|apply N2]; apply Rmult_lt_compat_r; lra. }
  rewrite E, (xln_pos f), xln_pos by lra. reflexivity.
Qed.
Print Assumptions C68_zero_outside.
Example C68_nonvacuous : 0 < 1/2 /\ -1 < 1/3 < 1.
Proof. lra. Qed.

(** C69 *)
Theorem C69_two_truncated_normals : forall high1 loc1 low1 scale1 high2 loc2 low2 scale2 zeta a b,
  0 <= zeta <= 1 -> 0 < scale1 -> 0 < scale2 -> a <= low1 -> low1 < high1 -> high1 <= b -> a <= low2 -> low2 < high2 -> high2 <= b ->
  integrates_to (two_truncated_normal high1 loc1 low1 scale1 high2 loc2 low2 scale2 zeta) a b 1.
Proof. exact two_truncated_normalised. Qed.
Print Assumptions C69_two_truncated_normals.
(** any number of dimensions; the box contains the support of both components *)
Theorem C69_nd_mixture : forall zeta box cs, 0 <= zeta <= 1 ->
  List.Forall (fun c => 0 < c_scale c /\ c_ilow c < c_ihigh c /\ c_glow c < c_ghigh c) cs ->
  Forall2 (fun (ab : R * R) c => fst ab <= c_ilow c /\ c_ihigh c <= snd ab /\ fst ab <= c_glow c /\ c_ghigh c <= snd ab) box cs ->
  iterated_integral box (fun xs => wexp (nd_isotropic_and_truncated zeta cs xs)) 1.
Proof. exact nd_mixture_normalised. Qed.
Print Assumptions C69_nd_mixture.
Theorem C69_spin_orientation : forall zeta scale1 scale2, 0 <= zeta <= 1 -> 0 < scale1 -> 0 < scale2 ->
  iterated_integral [(-1, 1); (-1, 1)] (fun ts => wexp (independent_spin_orientation zeta scale1 scale2 ts)) 1.
Proof.
  intros zeta s1 s2 Hz H1 H2. apply nd_mixture_normalised; auto.
  - constructor; [|constructor; [|constructor]]; unfold coord_ok; simpl; lra.
  - constructor; [|constructor; [|constructor]]; unfold covers; simpl; lra.
Qed.
Print Assumptions C69_spin_orientation.
Theorem C69_minimum_tilt : forall zeta loc1 loc2 scale1 scale2 min1 min2,
  0 <= zeta <= 1 -> 0 < scale1 -> 0 < scale2 -> -1 <= min1 < 1 -> -1 <= min2 < 1 ->
  iterated_integral [(-1, 1); (-1, 1)] (fun ts => wexp (minimum_tilt_extended zeta loc1 loc2 scale1 scale2 min1 min2 ts)) 1.
Proof.
  intros zeta l1 l2 s1 s2 m1 m2 Hz H1 H2 H3 H4. apply nd_mixture_normalised; auto.
  - constructor; [|constructor; [|constructor]]; unfold coord_ok; simpl; lra.
  - constructor; [|constructor; [|constructor]]; unfold covers; simpl; lra.
Qed.
Print Assumptions C69_minimum_tilt.
(** the orientation density at a point: isotropic part plus Gaussian part *)
Theorem C69_spin_orientation_value : forall zeta scale1 scale2 t1 t2, 0 <= zeta <= 1 -> 0 < scale1 -> 0 < scale2 ->
  -1 <= t1 <= 1 -> -1 <= t2 <= 1 ->
  wexp (independent_spin_orientation zeta scale1 scale2 [t1; t2])
  = (1 - zeta) / 4
    + zeta * (norm_pdf t1 1 scale1 / (ndtr 0 - ndtr (- 2 / scale1))) * (norm_pdf t2 1 scale2 / (ndtr 0 - ndtr (- 2 / scale2))).
Proof. exact orientation_value. Qed.
Print Assumptions C69_spin_orientation_value.
Example C69_nonvacuous : 0 <= 1/2 <= 1 /\ 0 < 1/3 /\ -1 <= -(1/2) < 1.
Proof. lra. Qed.
