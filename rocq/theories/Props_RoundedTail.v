(** C144, mean outside the bounds: the truncated normal in floating-point arithmetic. *)
From Coq Require Import Reals Lra Lia ZArith.
From Coquelicot Require Import Coquelicot.
From Flocq Require Import Core.
From Verif Require Import Model_X Model_Gauss Proofs_Gauss Proofs_GaussianSpin Proofs_Mass.
From Verif Require Import Model_Rounding Spec_Rounding Proofs_Rounding.
From Verif Require Import Model_RoundedPower Spec_RoundedPower Proofs_RoundedPower.
From Verif Require Import Model_RoundedNormal Spec_RoundedNormal Proofs_RoundedNormal.
From Verif Require Import Spec_RoundedTail Proofs_RoundedTail.
Open Scope R_scope.

(** ** C144, continued *)

(** With the mean below or above the bounds the result is close to the log density for bounds at
    [aa] and [bb] standard deviations, which are the given bounds up to the rounding of the
    standardised values.  [p] and [r] are the ends in the lower tail, after reflection if the mean
    is below the bounds. *)
Theorem C144_tail_error :
  forall (emin prec : Z) (e eta : R) (fexp flog1p flog fndtr flog_ndtr : R -> R) (constant : R)
         (x loc scale low high p r : R),
  (0 < prec)%Z -> 0 <= e -> 0 <= eta ->
  accurate emin prec e eta (fun t => t <= 0) exp fexp ->
  accurate emin prec e eta (fun t => 0 < t) ln flog ->
  accurate emin prec e eta (fun t => -1 < t) (fun t => ln (1 + t)) flog1p ->
  accurate emin prec e eta (fun _ => True) (fun t => ln (ndtr t)) flog_ndtr ->
  Rabs (constant - ln (2 * PI)) <= unit_roundoff prec * ln (2 * PI) ->
  is_float emin prec x -> is_float emin prec loc -> is_float emin prec scale ->
  is_float emin prec low -> is_float emin prec high ->
  0 < scale -> low <= x <= high ->
  let aa := fl_standard emin prec low loc scale in
  let bb := fl_standard emin prec high loc scale in
  aa < bb ->
  (bb <= 0 /\ p = aa /\ r = bb) \/ (0 < aa /\ p = - bb /\ r = - aa) ->
  tail_mass_error e eta p r < 1 -> tail_difference_error prec e eta p r < 1 ->
  Rabs (aa - (low - loc) / scale) <= standard_error emin prec ((low - loc) / scale) /\
  Rabs (bb - (high - loc) / scale) <= standard_error emin prec ((high - loc) / scale) /\
  exists y, fl_truncnorm_logpdf emin prec fexp flog1p flog fndtr flog_ndtr constant x loc scale low high = Fin y /\
    let exact := ln (norm_pdf x loc scale / (ndtr bb - ndtr aa)) in
    Rabs (y - exact) <=
      rounded emin prec exact (pdf_error emin prec e eta ((x - loc) / scale) scale + tail_error prec e eta p r).
Proof.
  intros emin prec e eta fexp flog1p flog fndtr flog_ndtr constant x loc scale low high p r Hp He Hn Ae Al A1 An Ac
    Fx Fo Fs Fl Fh Hs Hx aa bb Hab Hpr Q2 Q1.
  assert (Hp0 : Prec_gt_0 prec) by exact Hp.
  split; [apply (@standard_ok emin prec Hp0); assumption|].
  split; [apply (@standard_ok emin prec Hp0); assumption|].
  assert (Fa : is_float emin prec aa) by exact (@standard_float emin prec Hp0 low loc scale).
  assert (Fb : is_float emin prec bb) by exact (@standard_float emin prec Hp0 high loc scale).
  assert (G : exists y, fl_truncnorm_log_norm emin prec fexp flog1p fndtr flog_ndtr aa bb = Num y /\
    Rabs (y - ln (ndtr bb - ndtr aa)) <= tail_error prec e eta p r).
  { unfold fl_truncnorm_log_norm. destruct Hpr as [(B & -> & ->)|(A & -> & ->)].
    { destruct (Rle_dec bb 0) as [_|X]; [|lra].
      destruct (@tail_ok emin prec Hp0 e eta fexp flog1p flog_ndtr He Hn Ae A1 An aa bb Fa Fb Hab Q2 Q1) as (y & E & _ & D).
      exists y. split; assumption. }
    { destruct (Rle_dec bb 0) as [X|_]; [lra|]. destruct (Rlt_dec 0 aa) as [_|X]; [|lra].
      destruct (@tail_ok emin prec Hp0 e eta fexp flog1p flog_ndtr He Hn Ae A1 An (- bb) (- aa)
        (float_opp emin prec _ Fb) (float_opp emin prec _ Fa) ltac:(lra) Q2 Q1) as (y & E & _ & D).
      exists y. split; [exact E|]. rewrite !ndtr_opp in D.
      replace (1 - ndtr aa - (1 - ndtr bb)) with (ndtr bb - ndtr aa) in D by ring. exact D. } }
  destruct G as (y & E & D).
  unfold fl_truncnorm_logpdf. cbv zeta. destruct (Rle_dec scale 0) as [X|_]; [lra|].
  destruct (Rlt_dec x low) as [X|_]; [lra|]. destruct (Rlt_dec high x) as [X|_]; [lra|].
  fold aa bb. rewrite E. simpl. eexists. split; [reflexivity|].
  apply (@rounded_ok emin prec Hp0).
  pose proof (@pdf_ok emin prec Hp0 e eta flog constant Al Ac x loc scale Fx Fo Fs Hs) as P. cbv zeta in P.
  pose proof (ndtr_incr aa bb Hab) as I.
  assert (V : ln (norm_pdf x loc scale / (ndtr bb - ndtr aa)) =
    - (((x - loc) / scale * ((x - loc) / scale) + ln (2 * PI)) / 2) - ln scale - ln (ndtr bb - ndtr aa)).
  { unfold norm_pdf. pose proof (phi_pos ((x - loc) / scale)) as P0.
    rewrite ln_quotient; [|now apply Rdiv_lt_0_compat|lra]. rewrite ln_quotient by assumption.
    rewrite <- phi_exp, ln_exp. lra. }
  rewrite V.
  match goal with |- Rabs (?f - y - (?v - ?l)) <= _ => replace (f - y - (v - l)) with ((f - v) - (y - l)) by ring end.
  eapply Rle_trans; [apply Rabs_triang|]. rewrite Rabs_Ropp. lra.
Qed.
Print Assumptions C144_tail_error.

Lemma phi_ge : forall t, 0 <= t <= 3 -> / 729 <= phi t /\ (t <= 2 -> / 27 <= phi t).
Proof.
  intros t Ht. unfold phi.
  assert (S3 : 0 < sqrt (2 * PI) <= 3).
  { split; [apply sqrt_2PI_pos|]. rewrite <- (sqrt_square 3) by lra. apply sqrt_le_1_alt. pose proof PI_4. lra. }
  pose proof exp_le_3 as E3. pose proof (exp_pos 1) as E0.
  assert (I3 : / 3 <= exp (- (1))) by (rewrite exp_Ropp; apply Rinv_le_contravar; lra).
  assert (M : forall k, / 3 ^ k <= exp (- INR k)).
  { induction k as [|k IH]; [simpl; rewrite Ropp_0, exp_0; lra|].
    rewrite S_INR. replace (- (INR k + 1)) with (- INR k + - (1)) by ring. rewrite exp_plus.
    rewrite <- tech_pow_Rmult. rewrite Rinv_mult_distr by (try lra; apply pow_nonzero; lra).
    rewrite Rmult_comm. assert (0 < / 3 ^ k) by (apply Rinv_0_lt_compat, pow_lt; lra). apply Rmult_le_compat; lra. }
  assert (D : forall c k, / c <= / 3 ^ k / 3 -> t * t / 2 <= INR k -> / c <= exp (- (t * t / 2)) / sqrt (2 * PI)).
  { intros c k C T. eapply Rle_trans; [exact C|].
    assert (A : / 3 ^ k <= exp (- (t * t / 2))) by (eapply Rle_trans; [apply M|]; apply exp_mono; lra).
    assert (P : 0 < / 3 ^ k) by (apply Rinv_0_lt_compat, pow_lt; lra).
    apply Rmult_le_compat; [lra| |exact A|apply Rinv_le_contravar; lra].
    lra. }
  split.
  { apply (D _ 5%nat); [simpl; lra|simpl; nra]. }
  { intros T2. apply (D _ 2%nat); [simpl; lra|simpl; nra]. }
Qed.

Lemma mass_ge : forall a b, a < b -> exists c, a <= c <= b /\ ndtr b - ndtr a = phi c * (b - a).
Proof.
  intros a b H. destruct (MVT_gen ndtr a b phi) as (c & C & E).
  { intros t _. apply ndtr_derive. }
  { intros t _. apply continuity_pt_filterlim. apply (ex_derive_continuous ndtr). eexists. apply ndtr_derive. }
  rewrite Rmin_left, Rmax_right in C by lra. exists c. split; assumption.
Qed.

(** single precision with correctly rounded functions, the standard normal between 1 and 2: the
    hypotheses hold with p = -2 and r = -1 *)
Example C144_tail_nonvacuous :
  let eta := / 2 * bpow radix2 (-149) in
  fl_standard (-149) 24 1 0 1 = 1 /\ fl_standard (-149) 24 2 0 1 = 2 /\
  tail_mass_error (unit_roundoff 24) eta (- (2)) (- (1)) < / 2 /\
  tail_difference_error 24 (unit_roundoff 24) eta (- (2)) (- (1)) < / 2.
Proof.
  assert (Hp : (0 < 24)%Z) by lia. cbv zeta.
  assert (F1 : is_float (-149) 24 1) by (apply (@float_1 (-149) 24 Hp); lia).
  assert (F2 : is_float (-149) 24 2) by (change 2 with (bpow radix2 1); apply (@power_float (-149) 24 Hp); lia).
  split. { unfold fl_standard. rewrite Rminus_0_r, (@fl_id (-149) 24 1 F1). unfold Rdiv. rewrite Rinv_1, Rmult_1_r. exact (@fl_id (-149) 24 1 F1). }
  split. { unfold fl_standard. rewrite Rminus_0_r, (@fl_id (-149) 24 2 F2). unfold Rdiv. rewrite Rinv_1, Rmult_1_r. exact (@fl_id (-149) 24 2 F2). }
  assert (A : 0 < bpow radix2 (-149) <= unit_roundoff 24).
  { split; [apply bpow_gt_0|]. unfold unit_roundoff. apply bpow_le. lia. }
  assert (B : unit_roundoff 24 = / 16777216) by (unfold unit_roundoff; simpl; lra).
  unfold tail_difference_error, tail_mass_error. rewrite B in *. set (t := bpow radix2 (-149)) in *.
  set (W := log_ndtr_error (/ 16777216) (/ 2 * t) (- (2))).
  assert (P1 : / 729 <= ndtr (- (2))).
  { destruct (mass_ge (- (3)) (- (2)) ltac:(lra)) as (c & C & E). pose proof (ndtr_bounds (- (3))).
    destruct (phi_ge (- c) ltac:(lra)) as [G _]. rewrite phi_even in G. lra. }
  assert (P2 : / 27 <= ndtr (- (1)) - ndtr (- (2))).
  { destruct (mass_ge (- (2)) (- (1)) ltac:(lra)) as (c & C & E).
    destruct (phi_ge (- c) ltac:(lra)) as [_ G]. rewrite phi_even in G. lra. }
  assert (P3 : ndtr (- (1)) < 1 / 2) by (rewrite <- ndtr_0; apply ndtr_incr; lra).
  assert (W1 : 0 <= W <= / 20000).
  { unfold W, log_ndtr_error.
    assert (L1 : ln (ndtr (- (2))) < 0) by (rewrite <- ln_1; apply ln_increasing; lra).
    assert (L2 : - (729) <= ln (ndtr (- (2)))).
    { assert (X : / ndtr (- (2)) <= 729).
      { rewrite <- (Rinv_involutive 729) by lra. apply Rinv_le_contravar; lra. }
      assert (Y : 0 < / ndtr (- (2))) by (apply Rinv_0_lt_compat; lra).
      pose proof (exp_ineq1_le (ln (/ ndtr (- (2))))) as Z. rewrite exp_ln in Z by exact Y.
      rewrite ln_Rinv in Z by lra. lra. }
    rewrite Rabs_left by exact L1. lra. }
  assert (E1 : 1 <= exp W <= 1 + / 10000).
  { split; [rewrite <- exp_0; apply exp_mono; lra|].
    eapply Rle_trans; [apply exp_le_inv; lra|].
    apply Rmult_le_reg_r with (1 - W); [lra|]. rewrite Rinv_l by lra. nra. }
  set (N := ndtr (- (1)) - ndtr (- (2))) in *.
  assert (T : (ndtr (- (1)) + ndtr (- (2))) / N * (exp W - 1) < / 2).
  { assert ((ndtr (- (1)) + ndtr (- (2))) / N <= 27).
    { apply Rle_div_l; [lra|]. unfold N in *. lra. }
    assert (0 <= (ndtr (- (1)) + ndtr (- (2))) / N) by (apply Rle_div_r; unfold N in *; lra).
    nra. }
  split; [exact T|].
  set (q2 := (ndtr (- (1)) + ndtr (- (2))) / N * (exp W - 1)) in *.
  assert (Z1 : / 54 <= (1 - q2) * N) by nra.
  set (V := ndtr (- (1)) * exp W / ((1 - q2) * N)) in *.
  assert (V1 : V <= 54).
  { apply Rle_div_l; [lra|]. unfold N in *. nra. }
  assert (V0 : 0 <= V) by (apply Rle_div_r; [lra|]; unfold N in *; nra).
  apply Rle_lt_trans with (3 * / 16777216 * 54); [|lra].
  apply Rmult_le_compat; lra.
Qed.
