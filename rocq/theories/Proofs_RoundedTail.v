(** Lemmas about the rounded truncated normal with the mean outside the bounds. *)
From Coq Require Import Reals Lra Lia ZArith.
From Coquelicot Require Import Coquelicot.
From Flocq Require Import Core.
From Verif Require Import Model_X Model_Gauss Proofs_Gauss Proofs_GaussianSpin Proofs_Mass.
From Verif Require Import Model_Rounding Spec_Rounding Proofs_Rounding.
From Verif Require Import Model_RoundedPower Spec_RoundedPower Proofs_RoundedPower.
From Verif Require Import Model_RoundedNormal Spec_RoundedNormal Proofs_RoundedNormal Spec_RoundedTail.
Open Scope R_scope.

Lemma exp_near : forall d W, Rabs d <= W -> Rabs (exp d - 1) <= exp W - 1.
Proof.
  intros d W H. apply Rabs_le_inv in H.
  assert (A : exp d <= exp W) by (apply exp_mono; lra).
  assert (B : exp (- W) <= exp d) by (apply exp_mono; lra).
  assert (C : 2 <= exp W + exp (- W)).
  { rewrite exp_Ropp. pose proof (exp_pos W) as P.
    apply Rmult_le_reg_r with (exp W); [exact P|]. rewrite Rmult_plus_distr_r, Rinv_l by lra. pose proof (Rle_0_sqr (exp W - 1)) as S0. unfold Rsqr in S0. lra. }
  apply Rabs_le. lra.
Qed.

Section Tail.

Variables emin prec : Z.
Context {Hprec : Prec_gt_0 prec}.
Variables e eta : R.
Variables fexp flog1p flog_ndtr : R -> R.
Hypothesis He : 0 <= e.
Hypothesis Heta : 0 <= eta.
Hypothesis Aexp : accurate emin prec e eta (fun x => x <= 0) exp fexp.
Hypothesis Alog1p : accurate emin prec e eta (fun x => -1 < x) (fun x => ln (1 + x)) flog1p.
Hypothesis Alndtr : accurate emin prec e eta (fun _ => True) (fun x => ln (ndtr x)) flog_ndtr.

Notation u := (unit_roundoff prec).
Notation flt := (is_float emin prec).
Notation fl := (fl emin prec).

Lemma logsubexp_float : forall a b y, fl_logsubexp emin prec fexp flog1p a b = Num y -> flt y.
Proof.
  intros a b y. unfold fl_logsubexp. destruct (fl_log1p flog1p (- fexp (fl (b - a)))); intros E; try discriminate.
  assert (El : fl (a + x) = y) by congruence. rewrite <- El. exact (fl_float emin prec _).
Qed.

Lemma tail_ok : forall p r, flt p -> flt r -> p < r ->
  tail_mass_error e eta p r < 1 -> tail_difference_error prec e eta p r < 1 ->
  exists y, fl_logsubexp emin prec fexp flog1p (flog_ndtr r) (flog_ndtr p) = Num y /\ flt y /\
    Rabs (y - ln (ndtr r - ndtr p)) <= tail_error prec e eta p r.
Proof.
  intros p r Fp Fr H Q2 Q1.
  pose proof (ndtr_bounds p) as Bp. pose proof (ndtr_bounds r) as Br. pose proof (ndtr_incr p r H) as I.
  destruct (Alndtr p Fp Logic.I) as [Fb Eb]. destruct (Alndtr r Fr Logic.I) as [Fa Ea]. cbv beta in Ea, Eb.
  unfold tail_error. cbv zeta.
  unfold tail_difference_error in *. set (q2 := tail_mass_error e eta p r) in *.
  set (W := log_ndtr_error e eta p) in *.
  set (P := ndtr p) in *. set (Q := ndtr r) in *.
  set (a := flog_ndtr r) in *. set (b := flog_ndtr p) in *.
  assert (Lp : ln P < 0) by (rewrite <- ln_1; apply ln_increasing; lra).
  assert (Lr : ln Q < 0) by (rewrite <- ln_1; apply ln_increasing; lra).
  assert (Lpr : ln P < ln Q) by (apply ln_increasing; lra).
  assert (Wb : Rabs (b - ln P) <= W) by (unfold W, log_ndtr_error; fold P; exact Eb).
  assert (Wa : Rabs (a - ln Q) <= W).
  { eapply Rle_trans; [exact Ea|]. unfold W, log_ndtr_error. fold P.
    rewrite (Rabs_left (ln Q)), (Rabs_left (ln P)) by assumption.
    assert (e * - ln Q <= e * - ln P) by (apply Rmult_le_compat_l; lra). lra. }
  assert (W0 : 0 <= W) by (pose proof (Rabs_pos (b - ln P)); lra).
  assert (XW : 1 <= exp W) by (rewrite <- exp_0; now apply exp_mono).
  assert (Xa : exp a = Q * exp (a - ln Q)).
  { replace a with (ln Q + (a - ln Q)) at 1 by ring. rewrite exp_plus, exp_ln by lra. reflexivity. }
  assert (Xb : exp b = P * exp (b - ln P)).
  { replace b with (ln P + (b - ln P)) at 1 by ring. rewrite exp_plus, exp_ln by lra. reflexivity. }
  pose proof (exp_near _ _ Wa) as Na. pose proof (exp_near _ _ Wb) as Nb.
  set (N := Q - P) in *. assert (N0 : 0 < N) by (unfold N; lra).
  assert (D2 : Rabs (exp a - exp b - N) <= q2 * N).
  { rewrite Xa, Xb.
    replace (Q * exp (a - ln Q) - P * exp (b - ln P) - N) with (Q * (exp (a - ln Q) - 1) - P * (exp (b - ln P) - 1)) by (unfold N; ring).
    eapply Rle_trans; [apply Rabs_triang|]. rewrite Rabs_Ropp, !Rabs_mult, (Rabs_pos_eq Q), (Rabs_pos_eq P) by lra.
    replace (q2 * N) with (Q * (exp W - 1) + P * (exp W - 1)).
    2:{ unfold q2, tail_mass_error. fold P Q W. fold N. field. lra. }
    apply Rplus_le_compat; apply Rmult_le_compat_l; lra. }
  assert (Q20 : 0 <= q2).
  { apply Rmult_le_reg_r with N; [exact N0|]. pose proof (Rabs_pos (exp a - exp b - N)). lra. }
  destruct (ln_perturbed q2 N (exp a - exp b) N0 (conj Q20 Q2) D2) as [DP DL].
  assert (BA : b < a) by (apply exp_lt_inv; lra).
  set (S0 := 1 - exp (b - a)).
  assert (XS : exp a - exp b = exp a * S0).
  { unfold S0. rewrite Rmult_minus_distr_l, <- exp_plus. replace (a + (b - a)) with b by ring. ring. }
  pose proof (exp_pos a) as Pa.
  assert (SP : 0 < S0) by nra.
  assert (Ua : exp a <= Q * exp W).
  { rewrite Xa. apply Rmult_le_compat_l; [lra|]. apply exp_mono. apply Rabs_le_inv in Wa. lra. }
  assert (M : (1 - q2) * N <= exp a * S0).
  { rewrite <- XS. apply Rabs_le_inv in D2. lra. }
  pose proof (u_bounds prec) as U.
  set (q1 := (u + e + eta) * (Q * exp W / ((1 - q2) * N))) in *.
  assert (Z1 : 0 < (1 - q2) * N) by (apply Rmult_lt_0_compat; lra).
  assert (Le : (u + e + eta) / S0 <= q1).
  { unfold q1, Rdiv. apply Rmult_le_compat_l; [lra|].
    apply Rmult_le_reg_r with (S0 * ((1 - q2) * N)); [apply Rmult_lt_0_compat; assumption|].
    replace (/ S0 * (S0 * ((1 - q2) * N))) with ((1 - q2) * N) by (field; lra).
    replace (Q * exp W * / ((1 - q2) * N) * (S0 * ((1 - q2) * N))) with (Q * exp W * S0) by (field; lra).
    eapply Rle_trans; [exact M|]. apply Rmult_le_compat_r; lra. }
  destruct (@logsubexp_error emin prec Hprec e eta fexp flog1p He Heta Aexp Alog1p a b Fa Fb BA) as (y & E & B).
  { fold S0. lra. }
  exists y. split; [exact E|]. split; [now apply (logsubexp_float a b)|].
  cbv zeta in B. fold S0 in B.
  assert (V0 : 0 <= (u + e + eta) / S0) by (apply Rlt_le, Rdiv_lt_0_compat; lra).
  assert (RM : 0 <= of_relative ((u + e + eta) / S0) <= of_relative q1).
  { apply of_relative_mono; [split; assumption|exact Q1]. }
  set (r1 := of_relative q1) in *. set (r0 := of_relative ((u + e + eta) / S0)) in *.
  set (L := ln N) in *. set (r2 := of_relative q2) in *.
  assert (R2 : 0 <= r2) by (pose proof (Rabs_pos (ln (exp a - exp b) - L)); lra).
  assert (LS : Rabs (ln S0) <= Rabs (L - ln Q) + r2 + W).
  { assert (EL : ln (exp a - exp b) = a + ln S0) by (rewrite XS, ln_mult by assumption; rewrite ln_exp; reflexivity).
    replace (ln S0) with ((L - ln Q) + (ln (exp a - exp b) - L) - (a - ln Q)) by (rewrite EL; ring).
    eapply Rle_trans; [apply Rabs_triang|]. rewrite Rabs_Ropp.
    pose proof (Rabs_triang (L - ln Q) (ln (exp a - exp b) - L)). lra. }
  set (f := after_log e eta (Rabs (L - ln Q) + r2 + W) r1).
  set (f0 := r0 + e * (Rabs (ln S0) + r0) + eta) in *.
  assert (G0 : 0 <= Rabs (L - ln Q)) by apply Rabs_pos.
  assert (FF : f0 <= f).
  { unfold f, f0, after_log. rewrite (Rabs_pos_eq (Rabs (L - ln Q) + r2 + W)) by lra.
    assert (e * (Rabs (ln S0) + r0) <= e * (Rabs (L - ln Q) + r2 + W + r1)) by (apply Rmult_le_compat_l; lra). lra. }
  set (X := ln (exp a - exp b)) in *.
  assert (AX : Rabs X <= Rabs L + r2).
  { replace X with (L + (X - L)) by ring. eapply Rle_trans; [apply Rabs_triang|]. lra. }
  replace (y - L) with ((y - X) + (X - L)) by ring. eapply Rle_trans; [apply Rabs_triang|].
  assert (u * (Rabs X + f0) <= u * (Rabs L + r2 + f)) by (apply Rmult_le_compat_l; lra). lra.
Qed.

End Tail.
