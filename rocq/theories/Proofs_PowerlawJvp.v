From Coq Require Import Reals Lra ZArith.
From Coquelicot Require Import Coquelicot.
From Verif Require Import Model_X Spec_X Proofs_X Model_Powerlaw Spec_Density Proofs_Transform Proofs_Powerlaw.
Open Scope R_scope.

Lemma Rpower_pred x a : 0 < x -> Rpower x a = Rpower x (1 + a) / x.
Proof. intros. rewrite Rpower_plus, Rpower_1 by auto. field. lra. Qed.

Lemma locally_gt a x : a < x -> locally x (fun y => a < y).
Proof. intros H. apply (open_gt a x H). Qed.
Lemma locally_lt b x : x < b -> locally x (fun y => y < b).
Proof. intros H. apply (open_lt b x H). Qed.
Lemma locally_ne (b x : R) : x <> b -> locally x (fun y => y <> b).
Proof. intros H. apply (open_neq b x H). Qed.

(** ** branch equations *)
Lemma log_norm_neq alpha l h : alpha <> -1 -> 0 < l < h ->
  log_norm alpha l h = Fin (ln ((Rpower h (1 + alpha) - Rpower l (1 + alpha)) / (1 + alpha))).
Proof.
  intros Ha H. rewrite log_norm_fin by auto. unfold antider.
  destruct (Req_EM_T alpha (-1)); [lra|]. do 2 f_equal. field. lra.
Qed.
Lemma log_norm_eq l h : 0 < l < h -> log_norm (-1) l h = Fin (ln (ln h - ln l)).
Proof.
  intros H. rewrite log_norm_fin by auto. unfold antider. destruct (Req_EM_T (-1) (-1)); [auto|lra].
Qed.

Lemma log_norm_derive_alpha alpha l h : alpha <> -1 -> 0 < l < h ->
  has_derivative (fun a => log_norm a l h) alpha (log_norm_alpha_tangent alpha l h).
Proof.
  intros Ha H.
  apply has_derivative_intro with (fun a => ln ((Rpower h (1 + a) - Rpower l (1 + a)) / (1 + a))).
  - generalize (locally_ne (-1) alpha Ha). apply filter_imp. intros a E. now apply log_norm_neq.
  - pose proof (Rpower_diff_pos (1 + alpha) l h ltac:(lra) H) as P.
    pose proof (Rpower_diff_ne (1 + alpha) l h ltac:(lra) H) as N.
    unfold log_norm_alpha_tangent, log_norm_alpha_variable.
    destruct (Req_EM_T alpha (-1)); [lra|]. unfold Rpower in *.
    auto_derive; [repeat split; auto; lra|]. field. repeat split; lra.
Qed.

Lemma log_norm_derive_low alpha l h : 0 < l < h ->
  has_derivative (fun y => log_norm alpha y h) l (log_norm_low_tangent alpha l h).
Proof.
  intros H. unfold log_norm_low_tangent. destruct (Req_EM_T alpha (-1)) as [->|Ha].
  - apply has_derivative_intro with (fun y => ln (ln h - ln y)).
    + generalize (locally_between 0 h l H). apply filter_imp. intros y Hy. now apply log_norm_eq.
    + pose proof (ln_increasing l h ltac:(lra) ltac:(lra)).
      auto_derive; [repeat split; lra|]. field. split; lra.
  - apply has_derivative_intro with (fun y => ln ((Rpower h (1 + alpha) - Rpower y (1 + alpha)) / (1 + alpha))).
    + generalize (locally_between 0 h l H). apply filter_imp. intros y Hy. now apply log_norm_neq.
    + pose proof (Rpower_diff_pos (1 + alpha) l h ltac:(lra) H) as P.
      pose proof (Rpower_diff_ne (1 + alpha) l h ltac:(lra) H) as N.
      rewrite (Rpower_pred l alpha) by lra. unfold Rpower in *.
      auto_derive; [repeat split; auto; lra|]. field. repeat split; lra.
Qed.

Lemma log_norm_derive_high alpha l h : 0 < l < h ->
  has_derivative (fun y => log_norm alpha l y) h (log_norm_high_tangent alpha l h).
Proof.
  intros H. unfold log_norm_high_tangent. destruct (Req_EM_T alpha (-1)) as [->|Ha].
  - apply has_derivative_intro with (fun y => ln (ln y - ln l)).
    + generalize (locally_gt l h ltac:(lra)). apply filter_imp. intros y Hy. apply log_norm_eq; lra.
    + pose proof (ln_increasing l h ltac:(lra) ltac:(lra)).
      auto_derive; [repeat split; lra|]. field. split; lra.
  - apply has_derivative_intro with (fun y => ln ((Rpower y (1 + alpha) - Rpower l (1 + alpha)) / (1 + alpha))).
    + generalize (locally_gt l h ltac:(lra)). apply filter_imp. intros y Hy. apply log_norm_neq; lra.
    + pose proof (Rpower_diff_pos (1 + alpha) l h ltac:(lra) H) as P.
      pose proof (Rpower_diff_ne (1 + alpha) l h ltac:(lra) H) as N.
      rewrite (Rpower_pred h alpha) by lra. unfold Rpower in *.
      auto_derive; [repeat split; auto; lra|]. field. repeat split; lra.
Qed.

(** ** (exp x - 1) / x has derivative 1/2 at 0 *)
Definition expm1r (x : R) : R := if Req_EM_T x 0 then 1 else (exp x - 1) / x.

Lemma expm1r_PSeries x : expm1r x = PSeries (PS_decr_1 (fun n => / INR (Factorial.fact n))) x.
Proof.
  assert (E : exp x = 1 + x * PSeries (PS_decr_1 (fun n => / INR (Factorial.fact n))) x).
  { rewrite exp_Reals. rewrite PSeries_decr_1.
    - f_equal. simpl. field.
    - apply ex_pseries_R. eexists. apply is_pseries_R. apply is_exp_Reals. }
  unfold expm1r. destruct (Req_EM_T x 0) as [->|H].
  - rewrite PSeries_0. unfold PS_decr_1. simpl. field.
  - rewrite E. field. auto.
Qed.

Lemma expm1r_derive : is_derive expm1r 0 (1/2).
Proof.
  apply is_derive_ext with (PSeries (PS_decr_1 (fun n => / INR (Factorial.fact n)))).
  { intros t. now rewrite expm1r_PSeries. }
  assert (R : CV_radius (fun n => / INR (Factorial.fact n)) = p_infty).
  { apply CV_radius_infinite_DAlembert.
    - intros n. apply Rinv_neq_0_compat, INR_fact_neq_0.
    - apply is_lim_seq_ext with (fun n => / INR (S n)).
      + intros n. rewrite fact_simpl, mult_INR.
        pose proof (INR_fact_neq_0 n). pose proof (not_0_INR (S n) ltac:(discriminate)).
        rewrite Rabs_right.
        * field. auto.
        * replace (/ (INR (S n) * INR (Factorial.fact n)) / / INR (Factorial.fact n)) with (/ INR (S n)) by (field; auto).
          apply Rle_ge, Rlt_le, Rinv_0_lt_compat, lt_0_INR, Nat.lt_0_succ.
      + apply is_lim_seq_incr_1 with (u := fun n => / INR n).
        apply is_lim_seq_ext with (fun n => / INR n); [auto|].
        replace (Finite 0) with (Rbar_inv p_infty) by reflexivity.
        apply is_lim_seq_inv; [apply is_lim_seq_INR|discriminate]. }
  replace (1/2) with (PSeries (PS_derive (PS_decr_1 (fun n => / INR (Factorial.fact n)))) 0).
  2:{ rewrite PSeries_0. unfold PS_derive, PS_decr_1. simpl. field. }
  apply is_derive_PSeries. rewrite CV_radius_decr_1, R. simpl. auto.
Qed.

Lemma expm1r_0 : expm1r 0 = 1.
Proof. unfold expm1r. destruct (Req_EM_T 0 0); [auto|lra]. Qed.

Lemma pow_ratio b s : s <> 0 -> b * expm1r (s * b) = (exp (s * b) - 1) / s.
Proof.
  intros Hs. unfold expm1r. destruct (Req_EM_T (s * b) 0) as [E|E].
  - rewrite E, exp_0. assert (b = 0) by (apply Rmult_integral in E; tauto). subst. field. auto.
  - assert (b <> 0) by (intros ->; apply E; ring). field. auto.
Qed.

Lemma log_norm_uniform alpha l h : 0 < l < h ->
  log_norm alpha l h = Fin (ln (ln h * expm1r ((1 + alpha) * ln h) - ln l * expm1r ((1 + alpha) * ln l))).
Proof.
  intros H. destruct (Req_EM_T alpha (-1)) as [->|Ha].
  - rewrite log_norm_eq by auto. replace (1 + -1) with 0 by ring.
    rewrite !Rmult_0_l, expm1r_0. do 2 f_equal. ring.
  - rewrite log_norm_neq by auto. rewrite !pow_ratio by lra. unfold Rpower. do 2 f_equal. field. lra.
Qed.

Lemma scaled_derive b : is_derive (fun a => b * expm1r ((1 + a) * b)) (-1) (b * (b * (1/2))).
Proof.
  apply is_derive_scal. apply is_derive_comp with (f := expm1r) (g := fun a => (1 + a) * b).
  - replace ((1 + -1) * b) with 0 by ring. apply expm1r_derive.
  - auto_derive; auto. ring.
Qed.

Lemma log_norm_derive_alpha_minus1 l h : 0 < l < h ->
  has_derivative (fun a => log_norm a l h) (-1) ((ln h + ln l) / 2).
Proof.
  intros H. pose proof (ln_increasing l h ltac:(lra) ltac:(lra)) as L.
  apply has_derivative_intro with
    (fun a => ln (ln h * expm1r ((1 + a) * ln h) - ln l * expm1r ((1 + a) * ln l))).
  - apply filter_forall. intros a. now apply log_norm_uniform.
  - replace ((ln h + ln l) / 2) with (scal (minus (ln h * (ln h * (1/2))) (ln l * (ln l * (1/2)))) (/ (ln h - ln l))).
    2:{ unfold scal, minus, plus, opp; simpl; unfold mult; simpl. field. lra. }
    apply is_derive_comp with (f := ln)
      (g := fun a => minus (ln h * expm1r ((1 + a) * ln h)) (ln l * expm1r ((1 + a) * ln l))).
    + unfold minus, plus, opp; simpl. replace (1 + -1) with 0 by ring. rewrite !Rmult_0_l, expm1r_0.
      rewrite !Rmult_1_r. replace (ln h + - ln l) with (ln h - ln l) by ring.
      apply is_derive_Reals. apply derivable_pt_lim_ln. lra.
    + apply @is_derive_minus; apply scaled_derive.
Qed.

Lemma log_norm_alpha_average l h : 0 < l < h -> log_norm_alpha_tangent (-1) l h = (ln h + ln l) / 2.
Proof.
  intros H. unfold log_norm_alpha_tangent. destruct (Req_EM_T (-1) (-1)); [|lra].
  unfold log_norm_alpha_variable. set (d := 1 / 100000).
  replace (1 + (-1 - d)) with (- d) by ring. replace (1 + (-1 + d)) with d by ring.
  assert (Hd : 0 < d) by (unfold d; lra).
  rewrite !Rpower_Ropp.
  pose proof (Rpower_pos h d). pose proof (Rpower_pos l d).
  pose proof (Rpower_lt_pos d l h Hd H).
  field. repeat split; try lra.
Qed.

Theorem log_norm_jvp alpha l h : 0 < l < h ->
  has_derivative (fun a => log_norm a l h) alpha (log_norm_alpha_tangent alpha l h)
  /\ has_derivative (fun y => log_norm alpha y h) l (log_norm_low_tangent alpha l h)
  /\ has_derivative (fun y => log_norm alpha l y) h (log_norm_high_tangent alpha l h).
Proof.
  intros H. repeat split.
  - destruct (Req_EM_T alpha (-1)) as [->|Ha]; [|now apply log_norm_derive_alpha].
    rewrite log_norm_alpha_average by auto. now apply log_norm_derive_alpha_minus1.
  - now apply log_norm_derive_low.
  - now apply log_norm_derive_high.
Qed.

(** ** cdf *)
Lemma cdf_neq x alpha l h : alpha <> -1 -> 0 < l < h -> l <= x <= h ->
  powerlaw_cdf x alpha l h
  = Fin ((Rpower x (1 + alpha) - Rpower l (1 + alpha)) / (Rpower h (1 + alpha) - Rpower l (1 + alpha))).
Proof.
  intros Ha H Hx. destruct (cdf_inside x alpha l h H Hx) as [-> _]. f_equal.
  unfold antider. destruct (Req_EM_T alpha (-1)); [lra|].
  pose proof (Rpower_diff_ne (1 + alpha) l h ltac:(lra) H). field. repeat split; lra.
Qed.
Lemma cdf_eq x l h : 0 < l < h -> l <= x <= h ->
  powerlaw_cdf x (-1) l h = Fin ((ln x - ln l) / (ln h - ln l)).
Proof.
  intros H Hx. destruct (cdf_inside x (-1) l h H Hx) as [-> _]. f_equal.
  unfold antider. destruct (Req_EM_T (-1) (-1)); [auto|lra].
Qed.

Theorem cdf_jvp_x x alpha l h : 0 < l -> l < x < h ->
  has_derivative (fun y => powerlaw_cdf y alpha l h) x (cdf_x_tangent x alpha l h).
Proof.
  intros Hl Hx. replace (cdf_x_tangent x alpha l h) with (wexp (powerlaw_log_prob x alpha l h)).
  - now apply cdf_derivative.
  - rewrite density_value by lra. unfold cdf_x_tangent, antider.
    destruct (Req_EM_T alpha (-1)) as [->|Ha].
    + pose proof (ln_increasing l h ltac:(lra) ltac:(lra)).
      replace (-1) with (Ropp 1) by ring. rewrite Rpower_Ropp, Rpower_1 by lra. field. lra.
    + pose proof (Rpower_diff_ne (1 + alpha) l h ltac:(lra) ltac:(lra)). field. repeat split; lra.
Qed.

Theorem cdf_jvp_alpha x alpha l h : alpha <> -1 -> 0 < l < h -> l <= x <= h ->
  has_derivative (fun a => powerlaw_cdf x a l h) alpha (cdf_alpha_tangent x alpha l h).
Proof.
  intros Ha H Hx.
  apply has_derivative_intro with
    (fun a => (Rpower x (1 + a) - Rpower l (1 + a)) / (Rpower h (1 + a) - Rpower l (1 + a))).
  - generalize (locally_ne (-1) alpha Ha). apply filter_imp. intros a E. now apply cdf_neq.
  - pose proof (Rpower_diff_ne (1 + alpha) l h ltac:(lra) H) as N.
    unfold cdf_alpha_tangent, cdf_alpha_variable.
    destruct (Req_EM_T alpha (-1)); [lra|]. unfold Rpower in *.
    auto_derive; [repeat split; auto; lra|]. field. repeat split; lra.
Qed.

Theorem cdf_jvp_low x alpha l h : 0 < l -> l < x <= h ->
  has_derivative (fun y => powerlaw_cdf x alpha y h) l (cdf_low_tangent x alpha l h).
Proof.
  intros Hl Hx. unfold cdf_low_tangent. destruct (Req_EM_T alpha (-1)) as [->|Ha].
  - apply has_derivative_intro with (fun y => (ln x - ln y) / (ln h - ln y)).
    + generalize (locally_between 0 x l ltac:(lra)). apply filter_imp. intros y Hy. apply cdf_eq; lra.
    + pose proof (ln_increasing l h ltac:(lra) ltac:(lra)).
      auto_derive; [repeat split; lra|]. field. split; lra.
  - apply has_derivative_intro with
      (fun y => (Rpower x (1 + alpha) - Rpower y (1 + alpha)) / (Rpower h (1 + alpha) - Rpower y (1 + alpha))).
    + generalize (locally_between 0 x l ltac:(lra)). apply filter_imp. intros y Hy. apply cdf_neq; lra.
    + pose proof (Rpower_diff_ne (1 + alpha) l h ltac:(lra) ltac:(lra)) as N.
      rewrite (Rpower_pred l alpha) by lra. unfold Rpower in *.
      auto_derive; [repeat split; auto; lra|]. field. repeat split; lra.
Qed.

Theorem cdf_jvp_high x alpha l h : alpha <> -1 -> 0 < l -> l <= x < h ->
  has_derivative (fun y => powerlaw_cdf x alpha l y) h (cdf_high_tangent x alpha l h).
Proof.
  intros Ha Hl Hx. unfold cdf_high_tangent. destruct (Req_EM_T alpha (-1)); [lra|].
  apply has_derivative_intro with
      (fun y => (Rpower x (1 + alpha) - Rpower l (1 + alpha)) / (Rpower y (1 + alpha) - Rpower l (1 + alpha))).
  - generalize (locally_gt x h ltac:(lra)). apply filter_imp. intros y Hy. apply cdf_neq; lra.
  - pose proof (Rpower_diff_ne (1 + alpha) l h ltac:(lra) ltac:(lra)) as N.
    rewrite (Rpower_pred h alpha) by lra. unfold Rpower in *.
    auto_derive; [repeat split; auto; lra|]. field. repeat split; lra.
Qed.

(** at alpha = -1 the rule for [high] has the wrong sign *)
Theorem cdf_jvp_high_minus1 x l h : 0 < l -> l <= x < h ->
  has_derivative (fun y => powerlaw_cdf x (-1) l y) h (- cdf_high_tangent x (-1) l h).
Proof.
  intros Hl Hx. unfold cdf_high_tangent. destruct (Req_EM_T (-1) (-1)); [|lra].
  apply has_derivative_intro with (fun y => (ln x - ln l) / (ln y - ln l)).
  - generalize (locally_gt x h ltac:(lra)). apply filter_imp. intros y Hy. apply cdf_eq; lra.
  - pose proof (ln_increasing l h ltac:(lra) ltac:(lra)).
    auto_derive; [repeat split; lra|]. field. split; lra.
Qed.

Theorem cdf_jvp_high_minus1_wrong x l h : 0 < l -> l < x < h ->
  ~ has_derivative (fun y => powerlaw_cdf x (-1) l y) h (cdf_high_tangent x (-1) l h).
Proof.
  intros Hl Hx D. pose proof (cdf_jvp_high_minus1 x l h Hl ltac:(lra)) as D'.
  pose proof (has_derivative_unique _ _ _ _ D D') as E.
  assert (P : 0 < cdf_high_tangent x (-1) l h).
  { unfold cdf_high_tangent. destruct (Req_EM_T (-1) (-1)); [|lra].
    pose proof (ln_increasing l h ltac:(lra) ltac:(lra)). pose proof (ln_increasing l x ltac:(lra) ltac:(lra)).
    apply Rdiv_lt_0_compat; [lra|]. apply Rmult_lt_0_compat; [|lra]. apply pow_lt; lra. }
  lra.
Qed.

(** outside the range the cdf is constant but the rule is not zero *)
Theorem cdf_jvp_x_outside_wrong x alpha l h : 0 < l < h -> h < x ->
  has_derivative (fun y => powerlaw_cdf y alpha l h) x 0 /\ 0 < cdf_x_tangent x alpha l h.
Proof.
  intros H Hx. split.
  - apply has_derivative_intro with (fun _ => 1); [|apply @is_derive_const].
    generalize (locally_gt h x Hx). apply filter_imp. intros y Hy. apply cdf_above; lra.
  - unfold cdf_x_tangent. destruct (Req_EM_T alpha (-1)).
    + pose proof (ln_increasing l h ltac:(lra) ltac:(lra)). apply Rinv_0_lt_compat, Rmult_lt_0_compat; lra.
    + pose proof (Rpower_diff_pos (1 + alpha) l h ltac:(lra) H).
      pose proof (Rpower_diff_ne (1 + alpha) l h ltac:(lra) H).
      replace ((1 + alpha) * Rpower x alpha / (Rpower h (1 + alpha) - Rpower l (1 + alpha)))
        with (Rpower x alpha * / ((Rpower h (1 + alpha) - Rpower l (1 + alpha)) / (1 + alpha))) by (field; lra).
      apply Rmult_lt_0_compat; [apply Rpower_pos|now apply Rinv_0_lt_compat].
Qed.

(** at alpha = -1 the averaged rule for [alpha] is not the derivative *)
Lemma ln4 : ln 4 = 2 * ln 2.
Proof. replace 4 with (2 * 2) by ring. rewrite ln_mult by lra. ring. Qed.

Theorem cdf_jvp_alpha_minus1_wrong :
  ~ has_derivative (fun a => powerlaw_cdf 2 a 1 4) (-1) (cdf_alpha_tangent 2 (-1) 1 4).
Proof.
  intros D.
  pose proof (ln_increasing 1 2 ltac:(lra) ltac:(lra)) as L2. rewrite ln_1 in L2.
  assert (D' : has_derivative (fun a => powerlaw_cdf 2 a 1 4) (-1) (- ln 2 / 4)).
  { apply has_derivative_intro with (fun a => / (exp ((1 + a) * ln 2) + 1)).
    - apply filter_forall. intros a. destruct (Req_EM_T a (-1)) as [->|Ha].
      + rewrite cdf_eq by lra. f_equal. rewrite ln4, ln_1. replace (1 + -1) with 0 by ring.
        rewrite Rmult_0_l, exp_0. field. lra.
      + rewrite cdf_neq by lra. f_equal. pose proof (Rpower_diff_ne (1 + a) 1 4 ltac:(lra) ltac:(lra)) as N.
        unfold Rpower in *. rewrite ln4, ln_1, Rmult_0_r, exp_0 in *.
        replace ((1 + a) * (2 * ln 2)) with ((1 + a) * ln 2 + (1 + a) * ln 2) in * by ring.
        rewrite exp_plus in *. pose proof (exp_pos ((1 + a) * ln 2)). field.
        split; lra.
    - pose proof (exp_pos ((1 + -1) * ln 2)).
      auto_derive; [lra|]. replace (1 + -1) with 0 by ring. rewrite Rmult_0_l, exp_0. field. }
  pose proof (has_derivative_unique _ _ _ _ D D') as E.
  unfold cdf_alpha_tangent in E. destruct (Req_EM_T (-1) (-1)); [|lra].
  unfold cdf_alpha_variable in E.
  replace (1 + (-1 - 1 / 1000)) with (- (1/1000)) in E by field.
  replace (1 + (-1 + 1 / 1000)) with (1/1000) in E by field.
  rewrite !Rpower_Ropp in E.
  replace (Rpower 4 (1/1000)) with (Rpower 2 (1/1000) * Rpower 2 (1/1000)) in E.
  2:{ rewrite Rpower_mult_distr by lra. replace (2 * 2) with 4 by ring. reflexivity. }
  assert (R1 : Rpower 1 (1/1000) = 1) by (unfold Rpower; rewrite ln_1, Rmult_0_r; apply exp_0).
  rewrite R1, ln_1, ln4 in E.
  set (z := Rpower 2 (1/1000)) in *.
  assert (Hz : 1 < z).
  { unfold z. replace 1 with (Rpower 2 0) at 1 by (apply Rpower_O; lra). apply Rpower_lt; lra. }
  assert (E2 : - ln 2 * (z / (z + 1) ^ 2) = - ln 2 / 4).
  { rewrite <- E. field.
    assert (z * z - 1 <> 0) by nra. assert (1 - z * z <> 0) by nra. repeat split; lra. }
  assert (E3 : z / (z + 1) ^ 2 = 1 / 4) by nra.
  apply (f_equal (fun t => t * (4 * (z + 1) ^ 2))) in E3.
  field_simplify in E3; [|lra]. nra.
Qed.

(** ** icdf *)
Lemma icdf_neq q alpha l h : alpha <> -1 -> 0 < l -> 0 < h ->
  0 < Rpower l (1 + alpha) + q * (Rpower h (1 + alpha) - Rpower l (1 + alpha)) ->
  powerlaw_icdf q alpha l h
  = Fin (Rpower (Rpower l (1 + alpha) + q * (Rpower h (1 + alpha) - Rpower l (1 + alpha))) (/ (1 + alpha))).
Proof.
  intros Ha Hl Hh P. unfold powerlaw_icdf. destruct (Req_EM_T alpha (-1)); [lra|].
  rewrite !xpower_pos by lra. rewrite xsub_fin, xmul_fin. cbn [xadd]. now rewrite xpower_pos.
Qed.
Lemma icdf_eq q l h : 0 < l -> 0 < h -> powerlaw_icdf q (-1) l h = Fin (Rpower (h / l) q * l).
Proof.
  intros Hl Hh. unfold powerlaw_icdf. destruct (Req_EM_T (-1) (-1)); [|lra].
  rewrite xdiv_fin' by lra. rewrite xpower_pos by (apply Rdiv_lt_0_compat; lra). apply xmul_fin.
Qed.

Lemma base_pos q alpha l h : 0 < l < h -> 0 <= q <= 1 ->
  0 < Rpower l (1 + alpha) + q * (Rpower h (1 + alpha) - Rpower l (1 + alpha)).
Proof. intros. apply convex_pos; auto; apply Rpower_pos. Qed.

Lemma Rpower_pred' x a : 0 < x -> Rpower x (a - 1) = Rpower x a / x.
Proof. intros. unfold Rminus. rewrite Rpower_plus, Rpower_Ropp, Rpower_1 by auto. reflexivity. Qed.

Theorem icdf_jvp_q q alpha l h : 0 < l < h -> 0 <= q <= 1 ->
  has_derivative (fun p => powerlaw_icdf p alpha l h) q (icdf_q_tangent q alpha l h).
Proof.
  intros H Hq. unfold icdf_q_tangent. destruct (Req_EM_T alpha (-1)) as [->|Ha].
  - apply has_derivative_intro with (fun p => Rpower (h / l) p * l).
    + apply filter_forall. intros p. apply icdf_eq; lra.
    + unfold Rpower. auto_derive; auto. rewrite ln_div by lra. ring.
  - pose proof (base_pos q alpha l h H Hq) as P.
    set (lp := Rpower l (1 + alpha)) in *. set (hp := Rpower h (1 + alpha)) in *.
    apply has_derivative_intro with (fun p => Rpower (lp + p * (hp - lp)) (/ (1 + alpha))).
    + generalize (locally_pos (fun p => lp + p * (hp - lp)) q). intros L.
      apply (filter_imp (fun p => 0 < lp + p * (hp - lp))).
      * intros p Hp. apply icdf_neq; auto; lra.
      * apply L; auto. apply @ex_derive_continuous. auto_derive. auto.
    + rewrite Rpower_pred' by auto. unfold Rpower.
      auto_derive; [lra|]. unfold Rminus in *. field. split; lra.
Qed.

Theorem icdf_jvp_alpha q alpha l h : alpha <> -1 -> 0 < l < h -> 0 <= q <= 1 ->
  has_derivative (fun a => powerlaw_icdf q a l h) alpha (icdf_alpha_tangent q alpha l h).
Proof.
  intros Ha H Hq. unfold icdf_alpha_tangent. destruct (Req_EM_T alpha (-1)); [lra|].
  apply has_derivative_intro with
    (fun a => Rpower (Rpower l (1 + a) + q * (Rpower h (1 + a) - Rpower l (1 + a))) (/ (1 + a))).
  - generalize (locally_ne (-1) alpha Ha). apply filter_imp. intros a E.
    apply icdf_neq; auto; try lra. now apply base_pos.
  - pose proof (base_pos q alpha l h H Hq) as P. unfold icdf_alpha_variable.
    unfold Rpower in *. auto_derive; [repeat split; auto; lra|].
    unfold Rminus in *.
    replace (Rsqr (1 + alpha)) with ((1 + alpha) ^ 2) by (unfold Rsqr; ring).
    field. split; lra.
Qed.

Theorem icdf_jvp_low q alpha l h : 0 < l < h -> 0 <= q <= 1 ->
  has_derivative (fun y => powerlaw_icdf q alpha y h) l (icdf_low_tangent q alpha l h).
Proof.
  intros H Hq. unfold icdf_low_tangent. destruct (Req_EM_T alpha (-1)) as [->|Ha].
  - apply has_derivative_intro with (fun y => Rpower (h / y) q * y).
    + generalize (locally_between 0 h l H). apply filter_imp. intros y Hy. apply icdf_eq; lra.
    + assert (P : 0 < h / l) by (apply Rdiv_lt_0_compat; lra).
      rewrite Rpower_pred' by auto. unfold Rpower.
      auto_derive; [repeat split; auto; lra|]. unfold Rdiv in *. field. repeat split; lra.
  - pose proof (base_pos q alpha l h H Hq) as P.
    apply has_derivative_intro with
      (fun y => Rpower (Rpower y (1 + alpha) + q * (Rpower h (1 + alpha) - Rpower y (1 + alpha))) (/ (1 + alpha))).
    + generalize (locally_between 0 h l H). apply filter_imp. intros y Hy.
      apply icdf_neq; auto; try lra. now apply base_pos.
    + rewrite Rpower_pred' by auto. rewrite (Rpower_pred l alpha) by lra.
      unfold Rpower in *. auto_derive; [repeat split; auto; lra|]. unfold Rminus in *. field. repeat split; lra.
Qed.

Theorem icdf_jvp_high q alpha l h : 0 < l < h -> 0 <= q <= 1 ->
  has_derivative (fun y => powerlaw_icdf q alpha l y) h (icdf_high_tangent q alpha l h).
Proof.
  intros H Hq. unfold icdf_high_tangent. destruct (Req_EM_T alpha (-1)) as [->|Ha].
  - apply has_derivative_intro with (fun y => Rpower (y / l) q * l).
    + generalize (locally_gt l h ltac:(lra)). apply filter_imp. intros y Hy. apply icdf_eq; lra.
    + assert (P : 0 < h / l) by (apply Rdiv_lt_0_compat; lra).
      rewrite Rpower_pred' by auto. unfold Rpower.
      auto_derive; [repeat split; auto; lra|]. unfold Rdiv in *. field. repeat split; lra.
  - pose proof (base_pos q alpha l h H Hq) as P.
    apply has_derivative_intro with
      (fun y => Rpower (Rpower l (1 + alpha) + q * (Rpower y (1 + alpha) - Rpower l (1 + alpha))) (/ (1 + alpha))).
    + generalize (locally_gt l h ltac:(lra)). apply filter_imp. intros y Hy.
      apply icdf_neq; auto; try lra. apply base_pos; auto; lra.
    + rewrite Rpower_pred' by auto. rewrite (Rpower_pred h alpha) by lra.
      unfold Rpower in *. auto_derive; [repeat split; auto; lra|]. unfold Rminus in *. field. repeat split; lra.
Qed.

(** *** the averaged rule for [alpha] at -1 is not the derivative either: with low = 2^-1000,
    high = 2^1000 and q = 1/2 it exceeds an upper bound of the true derivative *)
Lemma derivative_le_of_upper (f g : R -> R) a r1 r2 eps : 0 < eps ->
  (forall x, a < x < a + eps -> f x <= g x) -> f a = g a ->
  derivable_pt_lim f a r1 -> derivable_pt_lim g a r2 -> r1 <= r2.
Proof.
  intros He Hle E D1 D2. apply Rnot_lt_le. intros C.
  destruct (D1 ((r1 - r2) / 2) ltac:(lra)) as [d1 H1].
  destruct (D2 ((r1 - r2) / 2) ltac:(lra)) as [d2 H2].
  set (t := Rmin eps (Rmin d1 d2) / 2).
  pose proof (cond_pos d1). pose proof (cond_pos d2).
  assert (Ht : 0 < t /\ t < eps /\ t < d1 /\ t < d2).
  { unfold t. pose proof (Rmin_l eps (Rmin d1 d2)). pose proof (Rmin_r eps (Rmin d1 d2)).
    pose proof (Rmin_l d1 d2). pose proof (Rmin_r d1 d2).
    assert (0 < Rmin eps (Rmin d1 d2)) by (repeat apply Rmin_pos; auto). lra. }
  specialize (H1 t ltac:(lra)). specialize (H2 t ltac:(lra)).
  rewrite Rabs_right in H1 at 1 by lra. rewrite Rabs_right in H2 at 1 by lra.
  specialize (H1 ltac:(lra)). specialize (H2 ltac:(lra)).
  apply Rabs_def2 in H1. apply Rabs_def2 in H2.
  specialize (Hle (a + t) ltac:(lra)).
  assert ((f (a + t) - f a) / t <= (g (a + t) - g a) / t).
  { unfold Rdiv. apply Rmult_le_compat_r; [apply Rlt_le, Rinv_0_lt_compat; lra|lra]. }
  lra.
Qed.

Lemma exp_ge_1p x : 1 + x <= exp x.
Proof.
  destruct (Req_EM_T x 0) as [->|H]; [rewrite exp_0; lra|].
  left. now apply exp_ineq1.
Qed.

(** cosh x <= exp (2 x^2) for |x| small *)
Lemma cosh_bound x : x * x <= 1/2 -> (exp x + exp (- x)) / 2 <= exp (2 * (x * x)).
Proof.
  intros Hx. assert (-1 < x < 1) by nra.
  pose proof (exp_ge_1p x). pose proof (exp_ge_1p (- x)).
  pose proof (exp_ge_1p (2 * (x * x))) as B.
  assert (E1 : exp x <= / (1 - x)).
  { rewrite <- (Ropp_involutive x) at 1. rewrite exp_Ropp. apply Rinv_le_contravar; lra. }
  assert (E2 : exp (- x) <= / (1 + x)).
  { rewrite exp_Ropp. apply Rinv_le_contravar; lra. }
  apply Rle_trans with (/ (1 - x * x)).
  - apply Rle_trans with ((/ (1 - x) + / (1 + x)) / 2); [lra|]. right. field. repeat split; nra.
  - apply Rle_trans with (1 + 2 * (x * x)); [|lra].
    apply Rmult_le_reg_l with (1 - x * x); [nra|]. rewrite Rinv_r by nra. nra.
Qed.

Definition tiny : R := exp (- (1000 * ln 2)).
Definition huge : R := exp (1000 * ln 2).

Lemma ln2_pos : 0 < ln 2.
Proof. rewrite <- ln_1. apply ln_increasing; lra. Qed.
Lemma ln2_bounds : 1/2 < ln 2 < 1.
Proof.
  split.
  - apply exp_lt_inv. rewrite exp_ln by lra.
    assert (H : exp (1/2) * exp (1/2) < 4).
    { rewrite <- exp_plus. replace (1/2 + 1/2) with 1 by field. pose proof exp_le_3. lra. }
    pose proof (exp_pos (1/2)). nra.
  - apply exp_lt_inv. rewrite exp_ln by lra. pose proof (exp_ineq1 1 ltac:(lra)). lra.
Qed.

Lemma tiny_huge : 0 < tiny < huge.
Proof.
  pose proof ln2_pos. split; [apply exp_pos|]. apply exp_increasing. lra.
Qed.

Theorem icdf_jvp_alpha_minus1_wrong :
  ~ has_derivative (fun a => powerlaw_icdf (1/2) a tiny huge) (-1) (icdf_alpha_tangent (1/2) (-1) tiny huge).
Proof.
  pose proof ln2_bounds as L2. pose proof tiny_huge as TH.
  set (c := 1000 * ln 2) in *.
  assert (Hb : forall a, Rpower tiny a + 1/2 * (Rpower huge a - Rpower tiny a) = (exp (a * c) + exp (- (a * c))) / 2).
  { intros a. unfold Rpower, tiny, huge. rewrite !ln_exp. fold c.
    replace (a * - c) with (- (a * c)) by ring. field. }
  intros (f & eps & He & Hf & D).
  (* an upper bound for the true derivative *)
  assert (U : icdf_alpha_tangent (1/2) (-1) tiny huge <= 2 * (c * c)).
  { apply (derivative_le_of_upper f (fun a => exp (2 * (c * c) * (1 + a))) (-1) _ (2 * (c * c))
             (Rmin eps (/ (2 * c)))); auto.
    - apply Rmin_pos; auto. apply Rinv_0_lt_compat. unfold c; lra.
    - intros a Ha. pose proof (Rmin_l eps (/ (2 * c))). pose proof (Rmin_r eps (/ (2 * c))).
      assert (F : powerlaw_icdf (1/2) a tiny huge = Fin (f a)).
      { apply Hf. rewrite Rabs_right; lra. }
      rewrite icdf_neq in F; [|lra|lra|lra|apply base_pos; lra].
      injection F as F. rewrite <- F, Hb.
      set (s := 1 + a) in *. assert (Hs : 0 < s < / (2 * c)) by (unfold s; lra).
      assert (Hc : 0 < c) by (unfold c; lra).
      assert (Hsc : s * c < 1/2).
      { replace (1/2) with (/ (2 * c) * c) by (field; lra). apply Rmult_lt_compat_r; lra. }
      assert (Hsc0 : 0 < s * c) by (apply Rmult_lt_0_compat; lra).
      pose proof (cosh_bound (s * c) ltac:(nra)) as B.
      pose proof (exp_pos (s * c)). pose proof (exp_pos (- (s * c))).
      apply Rle_trans with (Rpower (exp (2 * (s * c * (s * c)))) (/ s)).
      + apply Rle_Rpower_l; [left; apply Rinv_0_lt_compat; lra|lra].
      + unfold Rpower. rewrite ln_exp. right. f_equal. field. lra.
    - assert (F : powerlaw_icdf (1/2) (-1) tiny huge = Fin (f (-1))).
      { apply Hf. replace (-1 - -1) with 0 by ring. rewrite Rabs_R0. auto. }
      rewrite icdf_eq in F by lra. injection F as F. rewrite <- F.
      replace (1 + -1) with 0 by ring. rewrite Rmult_0_r, exp_0.
      unfold Rpower. rewrite ln_div by lra. unfold tiny, huge at 1. rewrite !ln_exp. fold c.
      rewrite <- exp_plus. replace (1 / 2 * (c - - c) + - c) with 0 by field. apply exp_0.
    - apply is_derive_Reals. auto_derive; auto. replace (1 + -1) with 0 by ring.
      rewrite Rmult_0_r, exp_0. ring. }
  (* the rule *)
  unfold icdf_alpha_tangent in U. destruct (Req_EM_T (-1) (-1)); [|lra].
  unfold icdf_alpha_variable in U.
  replace (1 + (-1 - 1 / 1000)) with (- (1/1000)) in U by field.
  replace (1 + (-1 + 1 / 1000)) with (1/1000) in U by field.
  rewrite !Hb in U.
  assert (T2 : Rpower tiny (1/1000) = / 2 /\ Rpower huge (1/1000) = 2 /\ Rpower tiny (- (1/1000)) = 2
               /\ Rpower huge (- (1/1000)) = / 2).
  { unfold Rpower, tiny, huge. rewrite !ln_exp. unfold c.
    replace (1 / 1000 * - (1000 * ln 2)) with (- ln 2) by field.
    replace (1 / 1000 * (1000 * ln 2)) with (ln 2) by field.
    replace (- (1 / 1000) * - (1000 * ln 2)) with (ln 2) by field.
    replace (- (1 / 1000) * (1000 * ln 2)) with (- ln 2) by field.
    rewrite exp_Ropp, exp_ln by lra. auto. }
  destruct T2 as (T1 & T2 & T3 & T4). rewrite T1, T2, T3, T4 in U.
  assert (E1 : (exp (1 / 1000 * c) + exp (- (1 / 1000 * c))) / 2 = 5/4).
  { unfold c. replace (1 / 1000 * (1000 * ln 2)) with (ln 2) by field. rewrite exp_Ropp, exp_ln by lra. field. }
  assert (E2 : (exp (- (1 / 1000) * c) + exp (- (- (1 / 1000) * c))) / 2 = 5/4).
  { replace (- (- (1 / 1000) * c)) with (1 / 1000 * c) by field.
    replace (- (1 / 1000) * c) with (- (1 / 1000 * c)) by field. lra. }
  rewrite E1, E2 in U.
  assert (Lt : ln tiny = - c) by (unfold tiny; rewrite ln_exp; auto).
  assert (Lh : ln huge = c) by (unfold huge; rewrite ln_exp; auto).
  rewrite Lt, Lh in U.
  replace (/ - (1 / 1000)) with (- (1000)) in U by field.
  replace (/ (1 / 1000)) with 1000 in U by field.
  assert (L54 : ln (5/4) <= 1/4).
  { apply exp_le_inv || idtac.
    destruct (Rle_dec (ln (5/4)) (1/4)) as [|C]; auto. exfalso.
    assert (exp (1/4) < exp (ln (5/4))) by (apply exp_increasing; lra).
    rewrite exp_ln in H by lra. pose proof (exp_ge_1p (1/4)). lra. }
  assert (P : 251 <= Rpower (5/4) 1000).
  { replace 1000 with (INR 1000) by (rewrite INR_IZR_INZ; reflexivity).
    rewrite Rpower_pow by lra.
    apply Rle_trans with (1 + INR 1000 * (1/4)).
    - rewrite INR_IZR_INZ. simpl. lra.
    - replace (5/4) with (1 + 1/4) by field. apply poly. lra. }
  pose proof (Rpower_pos (5/4) (- (1000))) as P'.
  set (A := Rpower (5/4) 1000) in *. set (B := Rpower (5/4) (- (1000))) in *.
  assert (V : (B + A) * (1000000 * (ln 2 * (3/5) - ln (5/4))) * (1/2) <= 2 * (c * c)).
  { eapply Rle_trans; [|exact U]. right. unfold c. field. }
  assert (W : 1/20 <= ln 2 * (3/5) - ln (5/4)) by lra.
  assert (251 * (1000000 * (1/20)) * (1/2) <= (B + A) * (1000000 * (ln 2 * (3/5) - ln (5/4))) * (1/2)).
  { apply Rmult_le_compat_r; [lra|]. apply Rmult_le_compat; lra. }
  assert (c * c <= 1000000) by (unfold c; nra). lra.
Qed.
