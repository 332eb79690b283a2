(** C124: a trained network is used with the meaning it was trained for. *)
From Coq Require Import String Reals List Bool Arith Lra Lia.
From Coquelicot Require Import Coquelicot.
From Verif Require Import Model_X Proofs_X Model_Guru Model_Neural Model_Train Model_TrainUse Spec_TrainUse Spec_X Props_Train.
Import ListNotations.
Open Scope R_scope.
Open Scope string_scope.

Lemma learned_mse tiny lg y out t : target tiny lg (Fin y) = Fin t -> learned tiny "mse" lg y out -> out = t.
Proof.
  intros T (l & t' & C & T' & M). injection C as <-. rewrite T in T'. injection T' as <-. specialize (M t). cbn in M. nra.
Qed.
Lemma learned_bce tiny y out : learned tiny "bce_logits" false y out ->
  let p := clip y (1/1000000) (1 - 1/1000000) in out = ln (p / (1 - p)).
Proof.
  intros (l & t & C & T & M) p. injection C as <-. injection T as <-. cbn [row_loss] in M.
  assert (He : 0 < 1/1000000 < 1/2) by lra.
  pose proof (C82_gradient (1/1000000) out y He) as D. fold p in D.
  assert (Z : / (1 + exp (- out)) - p = 0).
  { apply (uniqueness_limite (fun l => bce_logits (1/1000000) l y) out); [exact D|].
    assert (pr : derivable_pt (fun l => bce_logits (1/1000000) l y) out) by (eexists; exact D).
    rewrite <- (deriv_minimum (fun l => bce_logits (1/1000000) l y) (out - 1) (out + 1) out pr); try lra.
    - unfold derive_pt. destruct pr as [g Hg]. exact Hg.
    - intros x _ _. apply M. }
  pose proof (exp_pos (- out)) as P. assert (E : p = / (1 + exp (- out))) by lra. rewrite E.
  replace (/ (1 + exp (- out)) / (1 - / (1 + exp (- out)))) with (/ exp (- out)) by (field; lra).
  rewrite exp_Ropp, Rinv_inv. symmetry. apply ln_exp.
Qed.

(** *** the two combinations that agree: sensitive volumes learned as logarithms, probabilities learned as they are *)
Theorem C124_vt_log : forall network indices x tiny y out, network (columns indices x) = Fin out ->
  0 < y -> learned tiny "mse" true y out -> log_vt network indices x = Fin (ln y).
Proof.
  intros network indices x tiny y out E Hy L. unfold log_vt. rewrite E. f_equal.
  apply (learned_mse tiny true y out); [|exact L]. unfold target, log_target. cbn. destruct (Rlt_dec 0 y); [reflexivity|lra].
Qed.
Print Assumptions C124_vt_log.
Theorem C124_pdet_plain : forall network indices x tiny y out, network (columns indices x) = Fin out ->
  0 <= y -> learned tiny "mse" false y out -> wexp (log_pdet network indices x) = y.
Proof.
  intros network indices x tiny y out E Hy L. apply (learned_mse tiny false y out y eq_refl) in L. subst out.
  unfold log_pdet. rewrite E. cbn. destruct (Rle_dec y 0); cbn.
  - lra.
  - destruct (Rlt_dec 0 y); cbn; [apply exp_ln; lra|lra].
Qed.
Print Assumptions C124_pdet_plain.

(** *** the others *)
(** a volume of zero is learned as - tiny: it counts as a volume of almost one *)
Theorem C124_vt_zero_refuted : forall network indices x tiny out, network (columns indices x) = Fin out ->
  0 < tiny < 1 -> learned tiny "mse" true 0 out -> 1 - tiny < wexp (log_vt network indices x) < 1.
Proof.
  intros network indices x tiny out E Ht L. apply (learned_mse tiny true 0 out (- tiny)) in L.
  - unfold log_vt. rewrite E, L. cbn. split.
    + pose proof (exp_ineq1 (- tiny) ltac:(lra)). lra.
    + rewrite <- exp_0. apply exp_increasing. lra.
  - unfold target, log_target. cbn. destruct (Rlt_dec 0 0); [lra|]. destruct (Req_EM_T 0 0); [reflexivity|lra].
Qed.
Print Assumptions C124_vt_zero_refuted.
(** volumes learned as they are: exp of the volume is used *)
Theorem C124_vt_plain_refuted : forall network indices x tiny y out, network (columns indices x) = Fin out ->
  learned tiny "mse" false y out -> wexp (log_vt network indices x) = exp y /\ y < exp y.
Proof.
  intros network indices x tiny y out E L. apply (learned_mse tiny false y out y eq_refl) in L. subst out.
  unfold log_vt. rewrite E. split; [reflexivity|]. pose proof (exp_ineq1_le y). lra.
Qed.
Print Assumptions C124_vt_plain_refuted.
(** probabilities learned as logarithms: every probability becomes zero, *)
Theorem C124_pdet_log_refuted : forall network indices x tiny y out, network (columns indices x) = Fin out ->
  0 < tiny -> 0 <= y <= 1 -> learned tiny "mse" true y out -> log_pdet network indices x = NInf.
Proof.
  intros network indices x tiny y out E Ht Hy L. destruct (C52_finite tiny y Ht Hy) as (u & Eu & Hu).
  apply (learned_mse tiny true y out u Eu) in L. subst out. unfold log_pdet. rewrite E. cbn.
  destruct (Rle_dec u 0); [reflexivity|lra].
Qed.
Print Assumptions C124_pdet_log_refuted.
(** and so does the expected number of detections, for every population *)
Theorem C124_pdet_log_count_refuted : forall network indices tiny T n mix, 0 < tiny -> (0 < n)%nat ->
  (forall c, In c mix -> nc_samples c <> [] /\ exists r, redshift_log_norm (nc_dist c) = Fin r) ->
  (forall c x, In c mix -> In x (nc_samples c) -> exists y out,
     network (columns indices x) = Fin out /\ 0 <= y <= 1 /\ learned tiny "mse" true y out) ->
  pdet_poisson_mean network T n indices mix = Fin 0.
Proof.
  intros network indices tiny T n mix Ht Hn Hm Hx. unfold pdet_poisson_mean.
  assert (Z : map (fun c => xexp (xadd (xadd (Fin (nc_log_scale c)) (redshift_log_norm (nc_dist c)))
                             (logsumexp (map (log_pdet network indices) (nc_samples c))))) mix = map (fun _ => Fin 0) mix).
  { apply map_ext_in. intros c Hc. destruct (Hm c Hc) as [Hne [r Er]]. rewrite Er.
    assert (Al : map (log_pdet network indices) (nc_samples c) = repeat NInf (length (nc_samples c))).
    { assert (G : forall l, (forall x, In x l -> log_pdet network indices x = NInf) -> map (log_pdet network indices) l = repeat NInf (length l)).
      { induction l as [|a l IH]; intros Hl; auto. cbn. rewrite Hl by now left. rewrite IH; auto. intros x Hin. apply Hl. now right. }
      apply G. intros x Hin. destruct (Hx c x Hc Hin) as (y & out & E & Hy & L). eapply C124_pdet_log_refuted; eauto. }
    rewrite Al. assert (LS : forall k, logsumexp (repeat NInf (S k)) = NInf).
    { intros k. rewrite logsumexp_spec, xsum_exp_repeat_ninf. cbn. destruct (Rlt_dec 0 0); [lra|]. destruct (Req_EM_T 0 0); [reflexivity|lra]. }
    destruct (nc_samples c) as [|a l]; [congruence|]. cbn [length]. rewrite LS. reflexivity. }
  rewrite Z. assert (S0 : xsum (map (fun _ : ncomponent => Fin 0) mix) = Fin 0).
  { clear. induction mix as [|c mix IH]; auto. cbn [map xsum fold_right]. fold (xsum (map (fun _ : ncomponent => Fin 0) mix)). rewrite IH. cbn. f_equal. ring. }
  rewrite S0. assert (N0 : INR n <> 0) by (apply not_0_INR; lia). cbn. destruct (Req_EM_T (INR n) 0); [contradiction|]. cbn. f_equal. ring.
Qed.
Print Assumptions C124_pdet_log_count_refuted.
(** probabilities learned as logits, as the documentation recommends: up to one half they become zero, above it
    the logit is taken for the probability; certain detection counts as more than twelve *)
Theorem C124_pdet_bce_refuted : forall network indices x tiny y out, network (columns indices x) = Fin out ->
  0 <= y <= 1 -> learned tiny "bce_logits" false y out ->
  (y <= 1/2 -> log_pdet network indices x = NInf)
  /\ (1/2 < y < 1 - 1/1000000 -> log_pdet network indices x = Fin (ln (ln (y / (1 - y)))))
  /\ (y = 1 -> 12 < wexp (log_pdet network indices x)).
Proof.
  intros network indices x tiny y out E Hy L. apply learned_bce in L. cbv zeta in L.
  assert (P : forall p, 0 < p < 1 -> 1/2 < p -> 0 < ln (p / (1 - p))).
  { intros p H1 H2. rewrite <- ln_1. apply ln_increasing; [lra|]. apply Rmult_lt_reg_r with (1 - p); [lra|]. field_simplify; lra. }
  unfold log_pdet. rewrite E. split; [|split].
  - intros H. cbn. destruct (Rle_dec out 0); [reflexivity|]. exfalso. apply n. rewrite L.
    unfold clip. assert (Hm : 1/1000000 <= Rmax y (1/1000000) <= 1/2) by (unfold Rmax; destruct (Rle_dec y (1/1000000)); lra).
    rewrite Rmin_left by lra. set (m := Rmax y (1/1000000)) in *. rewrite <- ln_1.
    apply Rcomplements.ln_le; [apply Rdiv_lt_0_compat; lra|]. apply Rmult_le_reg_r with (1 - m); [lra|]. field_simplify; lra.
  - intros H. unfold clip in L. rewrite Rmax_left in L by lra. rewrite Rmin_left in L by lra.
    pose proof (P y ltac:(lra) ltac:(lra)) as Q. rewrite <- L in Q. cbn. destruct (Rle_dec out 0); [lra|]. cbn.
    destruct (Rlt_dec 0 out); [|lra]. now rewrite L.
  - intros ->. unfold clip in L. rewrite Rmax_left in L by lra. rewrite Rmin_right in L by lra.
    replace ((1 - 1 / 1000000) / (1 - (1 - 1 / 1000000))) with 999999 in L by field.
    assert (Q : 12 < out).
    { rewrite L. rewrite <- (ln_exp 12). apply ln_increasing; [apply exp_pos|].
      assert (E1 : exp 1 <= 3) by apply exp_le_3.
      assert (E12 : exp 12 = exp 1 ^ 12).
      { replace 12 with (1 + 1 + 1 + 1 + 1 + 1 + 1 + 1 + 1 + 1 + 1 + 1) by ring. rewrite !exp_plus. ring. }
      rewrite E12. apply Rle_lt_trans with (3 ^ 12); [apply pow_incr; split; [left; apply exp_pos|exact E1]|lra]. }
    cbn. destruct (Rle_dec out 0); [lra|]. cbn. destruct (Rlt_dec 0 out); [|lra]. cbn. rewrite exp_ln by lra. exact Q.
Qed.
Print Assumptions C124_pdet_bce_refuted.

Example C124_nonvacuous :
  learned (1/1000) "mse" true (1/2) (ln (1/2)) /\ learned (1/1000) "mse" false (1/2) (1/2)
  /\ learned (1/1000) "mse" true 0 (- (1/1000)) /\ learned (1/1000) "bce_logits" false (9/10) (ln 9)
  /\ log_pdet (fun _ => Fin (ln (1/2))) [0%nat] [Fin 30] = NInf.
Proof.
  assert (M : forall lg y t, target (1/1000) lg (Fin y) = Fin t -> learned (1/1000) "mse" lg y t).
  { intros lg y t E. exists MSE, t. split; [reflexivity|]. split; [exact E|]. intros other. unfold row_loss. pose proof (pow2_ge_0 (t - other)). replace ((t - t) ^ 2) with 0 by ring. lra. }
  split; [|split; [|split; [|split]]].
  - apply M. unfold target, log_target. cbn. destruct (Rlt_dec 0 (1/2)); [reflexivity|lra].
  - now apply M.
  - apply M. unfold target, log_target. cbn. destruct (Rlt_dec 0 0); [lra|]. destruct (Req_EM_T 0 0); [reflexivity|lra].
  - exists BCE, (9/10). split; [reflexivity|]. split; [reflexivity|]. intros other.
    destruct (C82_minimum (1/1000000) other (9/10) ltac:(lra)) as (_ & _ & H). cbv zeta in H.
    assert (Cl : clip (9/10) (1/1000000) (1 - 1/1000000) = 9/10) by (unfold clip; rewrite Rmax_left by lra; rewrite Rmin_left; lra).
    rewrite Cl in H. replace (9 / 10 / (1 - 9 / 10)) with 9 in H by field. exact H.
  - unfold log_pdet. cbn. assert (L : ln (1/2) <= 0) by (rewrite <- ln_1; apply Rcomplements.ln_le; lra).
    destruct (Rle_dec (ln (1/2)) 0); [reflexivity|lra].
Qed.
