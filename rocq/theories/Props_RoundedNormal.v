(** C144: the truncated normal in floating-point arithmetic. *)
From Coq Require Import Reals Lra Lia ZArith.
From Coquelicot Require Import Coquelicot.
From Flocq Require Import Core.
From Verif Require Import Model_X Model_Gauss Proofs_Gauss.
From Verif Require Import Model_Rounding Spec_Rounding Proofs_Rounding.
From Verif Require Import Model_RoundedPower Spec_RoundedPower Proofs_RoundedPower.
From Verif Require Import Model_RoundedNormal Spec_RoundedNormal Proofs_RoundedNormal.
Open Scope R_scope.

(** ** C144 *)

(** With the mean inside the bounds the log density is that of the truncated normal, up to an error
    that the accuracy of log, log1p and ndtr and the arguments determine, as long as the error of
    the mass is below the mass itself. *)
Theorem C144_error :
  forall (emin prec : Z) (e eta : R) (fexp flog1p flog fndtr flog_ndtr : R -> R) (constant : R)
         (x loc scale low high : R),
  (0 < prec)%Z -> 0 <= e -> 0 <= eta ->
  accurate emin prec e eta (fun t => 0 < t) ln flog ->
  accurate emin prec e eta (fun t => -1 < t) (fun t => ln (1 + t)) flog1p ->
  accurate emin prec e eta (fun _ => True) ndtr fndtr ->
  Rabs (constant - ln (2 * PI)) <= unit_roundoff prec * ln (2 * PI) ->
  is_float emin prec x -> is_float emin prec loc -> is_float emin prec scale ->
  is_float emin prec low -> is_float emin prec high ->
  0 < scale -> low <= x <= high -> low <= loc < high ->
  bpow radix2 emin * scale <= (high - loc) / 2 ->
  let mass := normal_mass loc scale low high in
  let q := mass_error emin prec e eta ((low - loc) / scale) ((high - loc) / scale) / mass in
  q < 1 ->
  exists y, fl_truncnorm_logpdf emin prec fexp flog1p flog fndtr flog_ndtr constant x loc scale low high = Fin y /\
    let exact := exact_truncnorm x loc scale low high in
    Rabs (y - exact) <=
      rounded emin prec exact (pdf_error emin prec e eta ((x - loc) / scale) scale + after_log e eta (ln mass) (of_relative q)).
Proof.
  intros emin prec e eta fexp flog1p flog fndtr flog_ndtr constant x loc scale low high Hp He Hn Al A1 An Ac
    Fx Fo Fs Fl Fh Hs Hx Hl Hh mass q Hq.
  exact (@truncnorm_ok emin prec Hp e eta fexp flog1p flog fndtr flog_ndtr constant He Al A1 An Ac
    x loc scale low high Fx Fo Fs Fl Fh Hs Hx Hl Hh Hq).
Qed.
Print Assumptions C144_error.

(** Outside the bounds, and for a scale that is not positive, the density is zero whatever the
    library does. *)
Theorem C144_outside :
  forall (emin prec : Z) (fexp flog1p flog fndtr flog_ndtr : R -> R) (constant x loc scale low high : R),
  x < low \/ high < x \/ scale <= 0 ->
  fl_truncnorm_logpdf emin prec fexp flog1p flog fndtr flog_ndtr constant x loc scale low high = NInf.
Proof.
  intros emin prec fexp flog1p flog fndtr flog_ndtr constant x loc scale low high H.
  unfold fl_truncnorm_logpdf. cbv zeta.
  destruct (Rlt_dec x low); [reflexivity|]. destruct (Rlt_dec high x); [reflexivity|].
  destruct (Rle_dec scale 0); [reflexivity|]. lra.
Qed.
Print Assumptions C144_outside.

(** Bounds that are the same number of standard deviations from the mean after rounding: the log
    density is +inf everywhere between them. *)
Theorem C144_equal_ends :
  forall (emin prec : Z) (fexp flog1p flog fndtr flog_ndtr : R -> R) (constant x loc scale low high : R),
  (0 < prec)%Z -> fexp 0 = 1 -> 0 < scale -> low <= x <= high ->
  fl_standard emin prec low loc scale = fl_standard emin prec high loc scale ->
  fl_truncnorm_logpdf emin prec fexp flog1p flog fndtr flog_ndtr constant x loc scale low high = PInf.
Proof. exact equal_ends. Qed.
Print Assumptions C144_equal_ends.

Lemma four : forall emin prec t, (1 < prec)%Z -> (emin <= - prec - 1)%Z -> 0 <= t <= 2 * unit_roundoff prec ->
  fl emin prec (4 + t) = 4.
Proof.
  intros emin prec t Hp Hm Ht.
  assert (Hp0 : Prec_gt_0 prec) by (unfold Prec_gt_0; lia).
  assert (F4 : is_float emin prec 4) by (change 4 with (bpow radix2 2); apply (@power_float emin prec Hp0); lia).
  apply Rle_antisym.
  2:{ rewrite <- (@fl_id emin prec 4 F4) at 1. apply (@fl_mono emin prec Hp0). lra. }
  assert (V : Valid_exp (FLT_exp emin prec)) by (apply FLT_exp_valid; exact Hp0).
  unfold fl. apply round_N_le_midp; [exact V|exact F4|]. rewrite succ_eq_pos by lra.
  assert (E : ulp radix2 (FLT_exp emin prec) 4 = 8 * unit_roundoff prec).
  { change 4 with (bpow radix2 2). rewrite ulp_bpow.
    replace (FLT_exp emin prec (2 + 1)) with (- prec + 3)%Z by (unfold FLT_exp; lia).
    rewrite bpow_plus. unfold unit_roundoff. simpl (bpow radix2 3). change (IZR (Z.pow_pos 2 3)) with 8. ring. }
  rewrite E. pose proof (bpow_gt_0 radix2 (- prec)) as P. unfold unit_roundoff in *. lra.
Qed.

(** So no bound on the error holds for all arguments: between one and the next float, with the mean
    at -3 and unit scale, the density is infinite, in every precision and for all library
    functions. *)
Theorem C144_refuted :
  forall (emin prec : Z) (fexp flog1p flog fndtr flog_ndtr : R -> R) (constant : R),
  (1 < prec)%Z -> (emin <= - prec - 1)%Z -> fexp 0 = 1 ->
  exists loc scale low high,
    is_float emin prec loc /\ is_float emin prec scale /\ is_float emin prec low /\ is_float emin prec high /\
    0 < scale /\ low < high /\
    forall x, low <= x <= high ->
      fl_truncnorm_logpdf emin prec fexp flog1p flog fndtr flog_ndtr constant x loc scale low high = PInf.
Proof.
  intros emin prec fexp flog1p flog fndtr flog_ndtr constant Hp Hm E0.
  assert (Hp0 : Prec_gt_0 prec) by (unfold Prec_gt_0; lia).
  pose proof (bpow_gt_0 radix2 (- prec)) as P.
  exists (-3), 1, 1, (1 + 2 * unit_roundoff prec).
  assert (F1 : is_float emin prec 1) by (exact (@float_1 emin prec Hp0 Hm)).
  split.
  { unfold is_float. apply generic_format_FLT. exists (Float radix2 (-3) 0); simpl.
    { unfold F2R. simpl. lra. }
    { assert (2 ^ 2 <= 2 ^ prec)%Z by (apply Z.pow_le_mono_r; lia). lia. } { lia. } }
  split; [exact F1|]. split; [exact F1|]. split.
  { unfold is_float. apply generic_format_FLT.
    exists (Float radix2 (2 ^ (prec - 1) + 1) (1 - prec)); cbn [Fnum Fexp].
    { unfold F2R, unit_roundoff. cbn [Fnum Fexp]. rewrite plus_IZR.
      replace (IZR (2 ^ (prec - 1))) with (bpow radix2 (prec - 1)) by (rewrite <- IZR_Zpower by lia; reflexivity).
      rewrite Rmult_plus_distr_r, <- bpow_plus. replace (prec - 1 + (1 - prec))%Z with 0%Z by ring.
      replace (1 - prec)%Z with (- prec + 1)%Z by ring. rewrite bpow_plus.
      change (bpow radix2 1) with 2. change (bpow radix2 0) with 1. ring. }
    { assert (0 < 2 ^ (prec - 1))%Z by (apply Z.pow_pos_nonneg; lia).
      change (radix_val radix2) with 2%Z.
      replace (2 ^ prec)%Z with (2 * 2 ^ (prec - 1))%Z by (rewrite <- Z.pow_succ_r by lia; f_equal; lia).
      assert (2 ^ 1 <= 2 ^ (prec - 1))%Z by (apply Z.pow_le_mono_r; lia). lia. }
    { lia. } }
  split; [lra|]. split; [unfold unit_roundoff; lra|].
  intros x Hx. apply C144_equal_ends; [lia|exact E0|lra|exact Hx|].
  unfold fl_standard. unfold unit_roundoff in *.
  replace (1 - -3) with (4 + 0) by ring. replace (1 + 2 * bpow radix2 (- prec) - -3) with (4 + 2 * bpow radix2 (- prec)) by ring.
  rewrite !four by (assumption || (unfold unit_roundoff; lra)). reflexivity.
Qed.
Print Assumptions C144_refuted.

Lemma half_below : forall emin prec x, (0 < prec)%Z -> (emin <= - prec - 1)%Z ->
  / 2 - unit_roundoff prec / 8 <= x <= / 2 -> fl emin prec x = / 2.
Proof.
  intros emin prec x Hp Hm [L M].
  assert (F2 : is_float emin prec (/ 2)) by (change (/ 2) with (bpow radix2 (-1)); apply (@power_float emin prec Hp); lia).
  apply Rle_antisym.
  { rewrite <- (@fl_id emin prec (/ 2) F2). now apply (@fl_mono emin prec Hp). }
  assert (V : Valid_exp (FLT_exp emin prec)) by (apply FLT_exp_valid; exact Hp).
  unfold fl. apply round_N_ge_midp; [exact V|exact F2|].
  change (/ 2) with (bpow radix2 (-1)) at 2. rewrite pred_bpow.
  assert (E : FLT_exp emin prec (-1) = (- prec + -1)%Z) by (unfold FLT_exp; lia).
  rewrite E, bpow_plus. unfold unit_roundoff in *. pose proof (bpow_gt_0 radix2 (- prec)).
  simpl (bpow radix2 (-1)). change (IZR (Z.pow_pos 2 1)) with 2. lra.
Qed.

(** The same with the mean at a bound, for a normal much wider than the bounds, although ndtr is
    correctly rounded: between 0 and 1 with scale 2^(prec + 3). *)
Theorem C144_wide_refuted :
  forall (emin prec : Z) (fexp flog1p flog flog_ndtr : R -> R) (constant x : R),
  (0 < prec)%Z -> (emin <= - prec - 3)%Z -> 0 <= x <= 1 ->
  is_float emin prec (bpow radix2 (prec + 3)) /\
  fl_truncnorm_logpdf emin prec fexp flog1p flog (fun t => fl emin prec (ndtr t)) flog_ndtr constant
    x 0 (bpow radix2 (prec + 3)) 0 1 = PInf.
Proof.
  intros emin prec fexp flog1p flog flog_ndtr constant x Hp Hm Hx.
  assert (Fs : is_float emin prec (bpow radix2 (prec + 3))) by (apply (@power_float emin prec Hp); lia).
  split; [exact Fs|].
  pose proof (bpow_gt_0 radix2 (prec + 3)) as S0.
  assert (F1 : is_float emin prec 1) by (apply (@float_1 emin prec Hp); lia).
  assert (A : fl_standard emin prec 0 0 (bpow radix2 (prec + 3)) = 0).
  { unfold fl_standard. rewrite Rminus_0_r, (@fl_0 emin prec). unfold Rdiv. rewrite Rmult_0_l. apply (@fl_0 emin prec). }
  assert (B : fl_standard emin prec 1 0 (bpow radix2 (prec + 3)) = unit_roundoff prec / 8).
  { unfold fl_standard. rewrite Rminus_0_r, (@fl_id emin prec 1 F1).
    replace (1 / bpow radix2 (prec + 3)) with (bpow radix2 (- prec - 3)).
    { assert (Fb : is_float emin prec (bpow radix2 (- prec - 3))) by (apply (@power_float emin prec Hp); lia).
      rewrite (@fl_id emin prec _ Fb). unfold unit_roundoff.
      replace (- prec - 3)%Z with (- prec + -3)%Z by ring. rewrite bpow_plus. simpl (bpow radix2 (-3)).
      change (IZR (Z.pow_pos 2 3)) with 8. reflexivity. }
    unfold Rdiv. rewrite Rmult_1_l, <- bpow_opp. f_equal. ring. }
  unfold fl_truncnorm_logpdf. cbv zeta. destruct (Rle_dec (bpow radix2 (prec + 3)) 0) as [X|_]; [lra|].
  destruct (Rlt_dec x 0) as [X|_]; [lra|]. destruct (Rlt_dec 1 x) as [X|_]; [lra|].
  rewrite A, B. unfold fl_truncnorm_log_norm.
  assert (U : 0 < unit_roundoff prec) by apply bpow_gt_0.
  destruct (Rle_dec (unit_roundoff prec / 8) 0) as [X|_]; [lra|]. destruct (Rlt_dec 0 0) as [X|_]; [lra|].
  rewrite ndtr_0. rewrite (half_below emin prec (1 / 2)) by (lia || lra).
  assert (N : fl emin prec (ndtr (- (unit_roundoff prec / 8))) = / 2).
  { apply half_below; [exact Hp|lia|].
    pose proof (ndtr_lipschitz (- (unit_roundoff prec / 8)) 0) as L.
    pose proof (ndtr_incr (- (unit_roundoff prec / 8)) 0 ltac:(lra)) as M. rewrite ndtr_0 in L, M.
    replace (- (unit_roundoff prec / 8) - 0) with (- (unit_roundoff prec / 8)) in L by ring.
    rewrite (Rabs_Ropp (unit_roundoff prec / 8)) in L. rewrite (Rabs_pos_eq (unit_roundoff prec / 8)) in L by lra.
    apply Rabs_le_inv in L. lra. }
  rewrite N. replace (- / 2 - / 2) with (- (1)) by field.
  rewrite (@fl_id emin prec (- (1))) by (apply (float_opp emin prec); exact F1).
  unfold fl_log1p. rewrite Rcompare_Eq by lra. reflexivity.
Qed.
Print Assumptions C144_wide_refuted.

(** single precision, the standard normal between -2 and 2 with library functions that are
    correctly rounded: the hypotheses of the bound hold, with a relative error of the mass below 10^-5 *)
Example C144_nonvacuous :
  let eta := / 2 * bpow radix2 (-149) in
  accurate (-149) 24 (unit_roundoff 24) eta (fun t => 0 < t) ln (fun t => fl (-149) 24 (ln t)) /\
  accurate (-149) 24 (unit_roundoff 24) eta (fun t => -1 < t) (fun t => ln (1 + t)) (fun t => fl (-149) 24 (ln (1 + t))) /\
  accurate (-149) 24 (unit_roundoff 24) eta (fun _ => True) ndtr (fun t => fl (-149) 24 (ndtr t)) /\
  is_float (-149) 24 (-2) /\ is_float (-149) 24 2 /\ is_float (-149) 24 0 /\ is_float (-149) 24 1 /\
  bpow radix2 (-149) * 1 <= (2 - 0) / 2 /\
  mass_error (-149) 24 (unit_roundoff 24) eta ((-2 - 0) / 1) ((2 - 0) / 1) / normal_mass 0 1 (-2) 2 < / 100000.
Proof.
  assert (Hp : (0 < 24)%Z) by lia.
  assert (F1 : is_float (-149) 24 1) by (apply (@float_1 (-149) 24 Hp); lia).
  assert (A : 0 < bpow radix2 (-149) <= unit_roundoff 24).
  { split; [apply bpow_gt_0|]. unfold unit_roundoff. apply bpow_le. lia. }
  assert (B : unit_roundoff 24 = / 16777216) by (unfold unit_roundoff; simpl; lra).
  cbv zeta.
  split; [apply (@correct_accurate (-149) 24 Hp)|]. split; [apply (@correct_accurate (-149) 24 Hp)|].
  split; [apply (@correct_accurate (-149) 24 Hp)|].
  assert (F2 : is_float (-149) 24 2) by (change 2 with (bpow radix2 1); apply (@power_float (-149) 24 Hp); lia).
  split; [apply (float_opp (-149) 24 _ F2)|]. split; [exact F2|]. split; [apply generic_format_0|]. split; [exact F1|].
  split; [rewrite B in A; lra|].
  assert (M : / 2 <= normal_mass 0 1 (-2) 2).
  { unfold normal_mass. replace ((2 - 0) / 1) with 2 by field. replace ((-2 - 0) / 1) with (- (2)) by field.
    rewrite ndtr_opp. pose proof (ndtr_tail 2 ltac:(lra)) as T. replace (2 * 2 / 2) with 2 in T by field.
    assert (X : exp (- (2)) <= / 4).
    { replace (- (2)) with (- (1 + 1)) by ring. rewrite exp_Ropp, exp_plus.
      pose proof (exp_ineq1_le 1). apply Rinv_le_contravar; [lra|]. nra. }
    lra. }
  apply Rlt_div_l; [lra|].
  unfold mass_error, standard_error, rounded. rewrite B in *. set (t := bpow radix2 (-149)) in *.
  replace ((-2 - 0) / 1) with (- (2)) by field. replace ((2 - 0) / 1) with 2 by field.
  rewrite Rabs_Ropp, (Rabs_pos_eq 2) by lra. nra.
Qed.
