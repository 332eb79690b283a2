(** Properties C32-C34: the truncated power law. *)
From Coq Require Import Reals Lra.
From Verif Require Import Model_X Spec_X Spec_Density Model_Powerlaw Proofs_Powerlaw Proofs_PowerlawJvp.
Open Scope R_scope.

(** C32 *)
Theorem C32_powerlaw_normalised : forall alpha low high, 0 < low < high ->
  integrates_to (fun x => powerlaw_log_prob x alpha low high) low high 1.
Proof. exact powerlaw_normalised. Qed.
Print Assumptions C32_powerlaw_normalised.

(** the density is not some other normalised one: densities at two points of the range are in
    the ratio of the powers *)
Theorem C32_powerlaw_shape : forall alpha low high x y, 0 < low < high -> 0 < x -> 0 < y ->
  wexp (powerlaw_log_prob x alpha low high) * Rpower y alpha
  = wexp (powerlaw_log_prob y alpha low high) * Rpower x alpha.
Proof.
  intros alpha low high x y H Hx Hy. rewrite !density_value by auto. unfold Rdiv. ring.
Qed.
Print Assumptions C32_powerlaw_shape.

Example C32_nonvacuous : 0 < 1 < 2 /\ powerlaw_log_prob 1 (-1) 1 2 = Fin (- ln (ln 2)).
Proof.
  split; [lra|]. rewrite log_prob_fin by lra. unfold antider. destruct (Req_EM_T (-1) (-1)); [|lra].
  rewrite ln_1. f_equal. rewrite !Rminus_0_r. ring.
Qed.

(** C33 *)
Theorem C33_cdf_below : forall x alpha low high, 0 < low < high -> 0 <= x <= low ->
  powerlaw_cdf x alpha low high = Fin 0.
Proof. exact cdf_below. Qed.
Print Assumptions C33_cdf_below.

Theorem C33_cdf_above : forall x alpha low high, 0 < low < high -> high <= x ->
  powerlaw_cdf x alpha low high = Fin 1.
Proof. exact cdf_above. Qed.
Print Assumptions C33_cdf_above.

Theorem C33_cdf_derivative_is_density : forall x alpha low high, 0 < low -> low < x < high ->
  has_derivative (fun y => powerlaw_cdf y alpha low high) x (wexp (powerlaw_log_prob x alpha low high)).
Proof. exact cdf_derivative. Qed.
Print Assumptions C33_cdf_derivative_is_density.

Theorem C33_cdf_after_icdf : forall q alpha low high, 0 < low < high -> 0 <= q <= 1 ->
  exists x, powerlaw_icdf q alpha low high = Fin x /\ low <= x <= high /\ powerlaw_cdf x alpha low high = Fin q.
Proof. exact cdf_icdf. Qed.
Print Assumptions C33_cdf_after_icdf.

Theorem C33_icdf_after_cdf : forall x alpha low high, 0 < low < high -> low <= x <= high ->
  exists q, powerlaw_cdf x alpha low high = Fin q /\ 0 <= q <= 1 /\ powerlaw_icdf q alpha low high = Fin x.
Proof. exact icdf_cdf. Qed.
Print Assumptions C33_icdf_after_cdf.

Theorem C33_cdf_increasing : forall x y alpha low high, 0 < low < high -> low <= x -> x < y -> y <= high ->
  exists p q, powerlaw_cdf x alpha low high = Fin p /\ powerlaw_cdf y alpha low high = Fin q /\ p < q.
Proof. exact cdf_increasing. Qed.
Print Assumptions C33_cdf_increasing.

Theorem C33_icdf_increasing : forall p q alpha low high, 0 < low < high -> 0 <= p -> p < q -> q <= 1 ->
  exists x y, powerlaw_icdf p alpha low high = Fin x /\ powerlaw_icdf q alpha low high = Fin y /\ x < y.
Proof. exact icdf_increasing. Qed.
Print Assumptions C33_icdf_increasing.

(** inverse-transform sampling: the draw made from the uniform [u] is at most [t] exactly when
    [u] is at most the cdf of [t] *)
Theorem C33_sample_follows_cdf : forall u t alpha low high, 0 < low < high -> 0 <= u < 1 -> low <= t <= high ->
  exists x c, powerlaw_icdf u alpha low high = Fin x /\ powerlaw_cdf t alpha low high = Fin c
    /\ (x <= t <-> u <= c).
Proof. exact sample_follows_cdf. Qed.
Print Assumptions C33_sample_follows_cdf.

(** below zero the claim "cdf = 0 below low" fails: an even exponent makes the cdf one *)
Theorem C33_cdf_below_zero_refuted :
  ~ (forall x alpha low high, 0 < low < high -> x <= low -> powerlaw_cdf x alpha low high = Fin 0).
Proof.
  intros H. specialize (H (-10) 1 1 5 ltac:(lra) ltac:(lra)). rewrite cdf_negative_wrong in H.
  injection H. lra.
Qed.
Print Assumptions C33_cdf_below_zero_refuted.

Example C33_nonvacuous : powerlaw_cdf 2 (-1) 1 4 = Fin (1/2) /\ powerlaw_icdf (1/2) 0 1 3 = Fin 2.
Proof.
  pose proof ln2_pos. split.
  - rewrite cdf_eq by lra. rewrite ln4, ln_1. f_equal. field. lra.
  - rewrite icdf_neq; try lra; rewrite ?Rplus_0_r, !Rpower_1 by lra; [|lra].
    rewrite Rinv_1, Rpower_1 by lra. f_equal. field.
Qed.

(** C34 *)
Theorem C34_log_norm_rule : forall alpha low high, 0 < low < high ->
  has_derivative (fun a => log_norm a low high) alpha (log_norm_alpha_tangent alpha low high)
  /\ has_derivative (fun y => log_norm alpha y high) low (log_norm_low_tangent alpha low high)
  /\ has_derivative (fun y => log_norm alpha low y) high (log_norm_high_tangent alpha low high).
Proof. exact log_norm_jvp. Qed.
Print Assumptions C34_log_norm_rule.

(** inside the range, away from index -1 *)
Theorem C34_cdf_rule_partial : forall x alpha low high, alpha <> -1 -> 0 < low -> low < x < high ->
  has_derivative (fun y => powerlaw_cdf y alpha low high) x (cdf_x_tangent x alpha low high)
  /\ has_derivative (fun a => powerlaw_cdf x a low high) alpha (cdf_alpha_tangent x alpha low high)
  /\ has_derivative (fun y => powerlaw_cdf x alpha y high) low (cdf_low_tangent x alpha low high)
  /\ has_derivative (fun y => powerlaw_cdf x alpha low y) high (cdf_high_tangent x alpha low high).
Proof.
  intros x alpha low high Ha Hl Hx. repeat split.
  - now apply cdf_jvp_x.
  - apply cdf_jvp_alpha; auto; lra.
  - apply cdf_jvp_low; lra.
  - apply cdf_jvp_high; auto; lra.
Qed.
Print Assumptions C34_cdf_rule_partial.

(** at index -1 the rules for [x] and [low] are right, the one for [high] is the derivative with
    the opposite sign *)
Theorem C34_cdf_rule_at_minus_one_partial : forall x low high, 0 < low -> low < x < high ->
  has_derivative (fun y => powerlaw_cdf y (-1) low high) x (cdf_x_tangent x (-1) low high)
  /\ has_derivative (fun y => powerlaw_cdf x (-1) y high) low (cdf_low_tangent x (-1) low high)
  /\ has_derivative (fun y => powerlaw_cdf x (-1) low y) high (- cdf_high_tangent x (-1) low high).
Proof.
  intros x low high Hl Hx. repeat split.
  - now apply cdf_jvp_x.
  - apply cdf_jvp_low; lra.
  - apply cdf_jvp_high_minus1; lra.
Qed.
Print Assumptions C34_cdf_rule_at_minus_one_partial.

Theorem C34_cdf_high_rule_refuted : forall x low high, 0 < low -> low < x < high ->
  ~ has_derivative (fun y => powerlaw_cdf x (-1) low y) high (cdf_high_tangent x (-1) low high).
Proof. exact cdf_jvp_high_minus1_wrong. Qed.
Print Assumptions C34_cdf_high_rule_refuted.

Theorem C34_cdf_index_rule_refuted :
  ~ (forall x low high, 0 < low -> low < x < high ->
     has_derivative (fun a => powerlaw_cdf x a low high) (-1) (cdf_alpha_tangent x (-1) low high)).
Proof. intros H. apply cdf_jvp_alpha_minus1_wrong. apply H; lra. Qed.
Print Assumptions C34_cdf_index_rule_refuted.

(** above the range the cdf is constant one, the rule still reports a positive slope *)
Theorem C34_cdf_rule_outside_refuted : forall x alpha low high, 0 < low < high -> high < x ->
  ~ has_derivative (fun y => powerlaw_cdf y alpha low high) x (cdf_x_tangent x alpha low high).
Proof.
  intros x alpha low high H Hx D. destruct (cdf_jvp_x_outside_wrong x alpha low high H Hx) as [D' P].
  pose proof (has_derivative_unique _ _ _ _ D D'). lra.
Qed.
Print Assumptions C34_cdf_rule_outside_refuted.

Theorem C34_icdf_rule_partial : forall q alpha low high, 0 < low < high -> 0 <= q <= 1 ->
  has_derivative (fun p => powerlaw_icdf p alpha low high) q (icdf_q_tangent q alpha low high)
  /\ (alpha <> -1 ->
      has_derivative (fun a => powerlaw_icdf q a low high) alpha (icdf_alpha_tangent q alpha low high))
  /\ has_derivative (fun y => powerlaw_icdf q alpha y high) low (icdf_low_tangent q alpha low high)
  /\ has_derivative (fun y => powerlaw_icdf q alpha low y) high (icdf_high_tangent q alpha low high).
Proof.
  intros q alpha low high H Hq. repeat split.
  - now apply icdf_jvp_q.
  - intros Ha. now apply icdf_jvp_alpha.
  - now apply icdf_jvp_low.
  - now apply icdf_jvp_high.
Qed.
Print Assumptions C34_icdf_rule_partial.

Theorem C34_icdf_index_rule_refuted :
  ~ (forall q low high, 0 < low < high -> 0 <= q <= 1 ->
     has_derivative (fun a => powerlaw_icdf q a low high) (-1) (icdf_alpha_tangent q (-1) low high)).
Proof. intros H. apply icdf_jvp_alpha_minus1_wrong. apply H; [exact tiny_huge|lra]. Qed.
Print Assumptions C34_icdf_index_rule_refuted.

Example C34_nonvacuous :
  log_norm_alpha_tangent (-1) 1 4 = ln 2 /\ 0 < cdf_high_tangent 2 (-1) 1 4
  /\ cdf_x_tangent 2 0 1 4 = 1/3 /\ icdf_q_tangent (1/2) 0 1 4 = 3.
Proof.
  pose proof ln2_pos. repeat split.
  - rewrite log_norm_alpha_average by lra. rewrite ln4, ln_1. field.
  - unfold cdf_high_tangent. destruct (Req_EM_T (-1) (-1)); [|lra]. rewrite ln4, ln_1.
    apply Rdiv_lt_0_compat; [lra|]. apply Rmult_lt_0_compat; [apply pow_lt; lra|lra].
  - unfold cdf_x_tangent. destruct (Req_EM_T 0 (-1)); [lra|].
    rewrite !Rplus_0_r, !Rpower_1, Rpower_O by lra. field.
  - unfold icdf_q_tangent. destruct (Req_EM_T 0 (-1)); [lra|].
    rewrite !Rplus_0_r, !Rpower_1 by lra. rewrite Rinv_1, Rminus_eq_0, Rpower_O by lra. field.
Qed.
