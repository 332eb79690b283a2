(** C142: the truncated power law in floating-point arithmetic. *)
From Coq Require Import Reals Lra Lia ZArith.
From Coquelicot Require Import Coquelicot.
From Flocq Require Import Core.
From Verif Require Import Model_X Proofs_Powerlaw Model_Rounding Spec_Rounding Proofs_Rounding.
From Verif Require Import Model_RoundedPower Spec_RoundedPower Proofs_RoundedPower.
Open Scope R_scope.

(** ** C142 *)

(** For alpha <> -1 the log density is the logarithm of x^alpha over the integral of t^alpha, up
    to an error that the accuracy of log and power, the bounds and alpha determine, as long as
    the relative error of the quotient stays below one. *)
Theorem C142_error :
  forall (emin prec : Z) (e eta : R) (flog : R -> R) (fpow : R -> R -> R) (x alpha low high : R),
  (0 < prec)%Z -> (emin <= - prec - 1)%Z -> 0 <= e -> 0 <= eta ->
  accurate emin prec e eta (fun t => 0 < t) ln flog ->
  accurate_power emin prec e eta fpow ->
  is_float emin prec x -> is_float emin prec alpha -> is_float emin prec low -> is_float emin prec high ->
  0 < x -> 0 < low < high -> alpha <> -1 ->
  let q := quotient_error emin prec e eta (fl emin prec (1 + alpha)) low high in
  q < 1 ->
  exists y, fl_power_log_prob emin prec flog fpow x alpha low high = Fin y /\
    let r := of_relative q + unit_roundoff prec * Rabs (1 + alpha) * log_size low high in
    let norm := after_log e eta (ln (mass_under alpha low high)) r in
    let exact := exact_log_density x alpha low high in
    Rabs (y - exact) <= after_minus prec exact (product_error emin prec e eta alpha x) norm.
Proof.
  intros emin prec e eta flog fpow x alpha low high Hp Hm He Hn Al Ap Fx Fa Fl Fh Hx H Ha q Hq.
  assert (F1 : is_float emin prec 1) by (exact (@float_1 emin prec Hp Hm)).
  destruct (@norm_error emin prec Hp e eta flog fpow He Hn Al Ap alpha low high F1 Fa Fl Fh H Ha Hq) as (y & E & Fy & B).
  exact (@density_error emin prec Hp e eta flog fpow Al x alpha low high y _ Fa Fx Hx E Fy B).
Qed.
Print Assumptions C142_error.

(** At alpha = -1 exactly, where the code takes the logarithms instead. *)
Theorem C142_error_minus_one :
  forall (emin prec : Z) (e eta : R) (flog : R -> R) (fpow : R -> R -> R) (x low high : R),
  (0 < prec)%Z -> (emin <= - prec - 1)%Z -> 0 <= e -> 0 <= eta ->
  accurate emin prec e eta (fun t => 0 < t) ln flog ->
  is_float emin prec x -> is_float emin prec low -> is_float emin prec high ->
  0 < x -> 0 < low < high ->
  let q := log_difference_error prec e eta low high in
  q < 1 ->
  exists y, fl_power_log_prob emin prec flog fpow x (-1) low high = Fin y /\
    let norm := after_log e eta (ln (mass_under (-1) low high)) (of_relative q) in
    let exact := exact_log_density x (-1) low high in
    Rabs (y - exact) <= after_minus prec exact (product_error emin prec e eta (-1) x) norm.
Proof.
  intros emin prec e eta flog fpow x low high Hp Hm He Hn Al Fx Fl Fh Hx H q Hq.
  assert (Fa : is_float emin prec (-1)).
  { apply (float_opp emin prec). exact (@float_1 emin prec Hp Hm). }
  destruct (@norm_error_minus_one emin prec Hp e eta flog fpow He Hn Al low high Fl Fh H Hq) as (y & E & Fy & B).
  exact (@density_error emin prec Hp e eta flog fpow Al x (-1) low high y _ Fa Fx Hx E Fy B).
Qed.
Print Assumptions C142_error_minus_one.

(** The errors of the powers count at most 1 + 2 / (|1 + alpha| log (high / low)) times. *)
Theorem C142_amplification : forall b low high, 0 < low < high -> b <> 0 ->
  amplification b low high <= 1 + 2 / (Rabs b * (ln high - ln low)).
Proof. exact amplification_le. Qed.
Print Assumptions C142_amplification.

(** With powers that are as exact as the format allows, the log density is +inf wherever it is
    asked for, once |1 + alpha| times the logarithms of the bounds is within a third of the unit
    roundoff. *)
Theorem C142_cancels : forall (emin prec : Z) (flog : R -> R) (x alpha low high : R),
  (0 < prec)%Z -> (emin <= - prec - 1)%Z ->
  is_float emin prec alpha -> alpha <> -1 -> 0 < low -> 0 < high ->
  Rabs (1 + alpha) * log_size low high <= unit_roundoff prec / 3 ->
  fl_power_log_prob emin prec flog (fun a b => fl emin prec (Rpower a b)) x alpha low high = PInf.
Proof.
  intros emin prec flog x alpha low high Hp Hm Fa Ha Hl Hh H.
  unfold fl_power_log_prob. rewrite (@norm_cancels emin prec Hp Hm); [reflexivity|exact Ha|exact Hl|exact Hh|].
  assert (F1 : is_float emin prec 1) by (exact (@float_1 emin prec Hp Hm)).
  destruct (@exponent_nonzero emin prec Hp alpha F1 Fa Ha) as [_ D].
  pose proof (@u_bounds prec Hp) as U.
  assert (L : 0 <= log_size low high) by (unfold log_size; eapply Rle_trans; [apply Rabs_pos|apply Rmax_l]).
  assert (B : Rabs (fl emin prec (1 + alpha)) <= 3 / 2 * Rabs (1 + alpha)).
  { replace (fl emin prec (1 + alpha)) with ((1 + alpha) + (fl emin prec (1 + alpha) - (1 + alpha))) by ring.
    eapply Rle_trans; [apply Rabs_triang|]. pose proof (Rabs_pos (1 + alpha)). nra. }
  assert (Rabs (fl emin prec (1 + alpha)) * log_size low high <= 3 / 2 * Rabs (1 + alpha) * log_size low high).
  { apply Rmult_le_compat_r; assumption. }
  lra.
Qed.
Print Assumptions C142_cancels.

(** two floats of every format of at least three digits *)
Lemma below_one : forall emin prec, (2 < prec)%Z -> (emin <= - prec - 1)%Z ->
  is_float emin prec (1 - unit_roundoff prec) /\ is_float emin prec (- (3 / 4)).
Proof.
  intros emin prec Hp Hm. split.
  { unfold is_float. apply generic_format_FLT.
    exists (Float radix2 (2 ^ prec - 1) (- prec)); simpl.
    { unfold F2R, unit_roundoff. simpl. rewrite minus_IZR.
      replace (IZR (2 ^ prec)) with (bpow radix2 prec) by (rewrite <- IZR_Zpower by lia; reflexivity).
      rewrite Rmult_minus_distr_r, <- bpow_plus. replace (prec + - prec)%Z with 0%Z by ring. simpl. ring. }
    { assert (0 < 2 ^ prec)%Z by (apply Z.pow_pos_nonneg; lia). lia. }
    { lia. } }
  { unfold is_float. apply generic_format_FLT.
    exists (Float radix2 (-3) (-2)); simpl.
    { unfold F2R. simpl. lra. }
    { assert (2 ^ 2 < 2 ^ prec)%Z by (apply Z.pow_lt_mono_r; lia). lia. }
    { lia. } }
Qed.

Lemma ln_below_one : forall u, 0 < u <= / 4 -> Rabs (ln (1 - u)) <= 4 / 3 * u.
Proof.
  intros u U. assert (N : ln (1 - u) < 0) by (rewrite <- ln_1; apply ln_increasing; lra).
  rewrite Rabs_left by exact N. rewrite <- ln_Rinv by lra.
  assert (L : ln (/ (1 - u)) <= / (1 - u) - 1).
  { assert (P : 0 < / (1 - u)) by (apply Rinv_0_lt_compat; lra).
    pose proof (exp_ineq1_le (ln (/ (1 - u)))) as E. rewrite exp_ln in E by exact P. lra. }
  eapply Rle_trans; [exact L|].
  apply Rmult_le_reg_r with (1 - u); [lra|]. rewrite Rmult_minus_distr_r, Rinv_l by lra. nra.
Qed.

(** So no bound on the error holds for all alpha and all bounds: for alpha = -3/4 and the window
    between one and the float below it (the mass ratios left when the primary is the next float
    above the smallest mass) the density is infinite, in every precision. *)
Theorem C142_refuted : forall (emin prec : Z) (flog : R -> R),
  (2 < prec)%Z -> (emin <= - prec - 1)%Z ->
  (exists alpha low high, is_float emin prec alpha /\ is_float emin prec low /\ is_float emin prec high /\
     alpha <> -1 /\ 0 < low < high /\
     forall x, fl_power_log_prob emin prec flog (fun a b => fl emin prec (Rpower a b)) x alpha low high = PInf) /\
  ~ exists bound, forall x alpha low high,
      is_float emin prec x -> is_float emin prec alpha -> is_float emin prec low -> is_float emin prec high ->
      0 < low < high -> low <= x <= high ->
      exists y, fl_power_log_prob emin prec flog (fun a b => fl emin prec (Rpower a b)) x alpha low high = Fin y /\
        Rabs (y - exact_log_density x alpha low high) <= bound.
Proof.
  intros emin prec flog Hp Hm.
  assert (Hp0 : (0 < prec)%Z) by lia.
  destruct (below_one emin prec Hp Hm) as [Fl Fa].
  assert (F1 : is_float emin prec 1) by (exact (@float_1 emin prec Hp0 Hm)).
  assert (U : 0 < unit_roundoff prec <= / 4).
  { unfold unit_roundoff. split; [apply bpow_gt_0|]. change (/ 4) with (bpow radix2 (-2)). apply bpow_le. lia. }
  assert (G : forall x, fl_power_log_prob emin prec flog (fun a b => fl emin prec (Rpower a b)) x (- (3 / 4)) (1 - unit_roundoff prec) 1 = PInf).
  { intros x. apply C142_cancels; try assumption; try lra.
    unfold log_size. rewrite ln_1, Rabs_R0. rewrite Rmax_left by apply Rabs_pos.
    replace (1 + - (3 / 4)) with (/ 4) by lra. rewrite (Rabs_pos_eq (/ 4)) by lra.
    pose proof (ln_below_one _ U). lra. }
  split.
  { exists (- (3 / 4)), (1 - unit_roundoff prec), 1. repeat split; try assumption; try lra. }
  { intros (bound & H). destruct (H 1 (- (3 / 4)) (1 - unit_roundoff prec) 1 F1 Fa Fl F1 ltac:(lra) ltac:(lra)) as (y & E & _).
    rewrite G in E. discriminate. }
Qed.
Print Assumptions C142_refuted.

(** single precision, alpha = 0 between one and two, log and power correctly rounded: the
    hypotheses of the bound hold *)
Example C142_error_nonvacuous :
  let flog := fun x => fl (-149) 24 (ln x) in
  let fpow := fun a b => fl (-149) 24 (Rpower a b) in
  accurate (-149) 24 (unit_roundoff 24) (/ 2 * bpow radix2 (-149)) (fun t => 0 < t) ln flog /\
  accurate_power (-149) 24 (unit_roundoff 24) (/ 2 * bpow radix2 (-149)) fpow /\
  is_float (-149) 24 0 /\ is_float (-149) 24 1 /\ is_float (-149) 24 2 /\
  fl (-149) 24 (1 + 0) = 1 /\
  quotient_error (-149) 24 (unit_roundoff 24) (/ 2 * bpow radix2 (-149)) 1 1 2 < / 1000000.
Proof.
  assert (Hp : (0 < 24)%Z) by lia.
  assert (F1 : is_float (-149) 24 1) by (apply (@float_1 (-149) 24 Hp); lia).
  cbv zeta. repeat split.
  { apply (@fl_float (-149) 24 Hp). } { apply (@fl_err (-149) 24 Hp). }
  { apply (@fl_float (-149) 24 Hp). }
  { eapply Rle_trans; [apply (@fl_err (-149) 24 Hp)|]. rewrite (Rabs_pos_eq (Rpower x y)); [lra|left; apply exp_pos]. }
  { apply generic_format_0. } { exact F1. }
  { change 2 with (bpow radix2 1). apply (@power_float (-149) 24 Hp). lia. }
  { rewrite Rplus_0_r. exact (@fl_id (-149) 24 1 F1). }
  unfold quotient_error, amplification. cbv zeta. rewrite !Rpower_1 by lra.
  replace (2 - 1) with 1 by ring. rewrite Rabs_R1.
  assert (A : 0 < bpow radix2 (-149) <= unit_roundoff 24).
  { split; [apply bpow_gt_0|]. unfold unit_roundoff. apply bpow_le. lia. }
  assert (B : unit_roundoff 24 = / 16777216) by (unfold unit_roundoff; simpl; lra).
  rewrite B in *. set (t := bpow radix2 (-149)) in *. unfold Rdiv. rewrite Rinv_1. nra.
Qed.

(** the same at alpha = -1 *)
Example C142_error_minus_one_nonvacuous :
  log_difference_error 24 (unit_roundoff 24) (/ 2 * bpow radix2 (-149)) 1 2 < / 1000000.
Proof.
  unfold log_difference_error. rewrite ln_1, Rabs_R0.
  assert (A : 0 < bpow radix2 (-149) <= unit_roundoff 24).
  { split; [apply bpow_gt_0|]. unfold unit_roundoff. apply bpow_le. lia. }
  assert (B : unit_roundoff 24 = / 16777216) by (unfold unit_roundoff; simpl; lra).
  rewrite B in *. set (t := bpow radix2 (-149)) in *.
  assert (L : / 2 <= ln 2).
  { assert (E : exp (- ln 2) = / 2) by (rewrite exp_Ropp, exp_ln by lra; reflexivity).
    pose proof (exp_ineq1_le (- ln 2)). lra. }
  rewrite (Rabs_pos_eq (ln 2)) by lra. rewrite Rminus_0_r, Rplus_0_r.
  assert (C : (/ 16777216 * ln 2 + 2 * (/ 2 * t)) / ln 2 <= 3 * / 16777216).
  { apply Rle_div_l; [lra|]. nra. }
  nra.
Qed.

Example C142_amplification_nonvacuous : amplification 1 1 2 = 3.
Proof. unfold amplification. rewrite !Rpower_1 by lra. rewrite Rabs_pos_eq by lra. lra. Qed.

(** a density that is infinite: see the witness of the refutation *)
Example C142_cancels_nonvacuous :
  Rabs (1 + - (3 / 4)) * log_size (1 - unit_roundoff 24) 1 <= unit_roundoff 24 / 3.
Proof.
  assert (B : unit_roundoff 24 = / 16777216) by (unfold unit_roundoff; simpl; lra).
  unfold log_size. rewrite ln_1, Rabs_R0. rewrite Rmax_left by apply Rabs_pos.
  replace (1 + - (3 / 4)) with (/ 4) by lra. rewrite (Rabs_pos_eq (/ 4)) by lra.
  pose proof (ln_below_one (unit_roundoff 24) ltac:(rewrite B; lra)). lra.
Qed.
