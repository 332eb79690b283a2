(** Lemmas about the rounded truncated power law. *)
From Coq Require Import Reals Lra Lia ZArith.
From Coquelicot Require Import Coquelicot.
From Flocq Require Import Core.
From Verif Require Import Model_X Proofs_Powerlaw Model_Rounding Spec_Rounding Proofs_Rounding.
From Verif Require Import Model_RoundedPower Spec_RoundedPower.
Open Scope R_scope.

(** ** The exact mass *)

Lemma power_continuous : forall alpha t, 0 < t -> continuous (fun y => Rpower y alpha) t.
Proof.
  intros alpha t Ht. apply @ex_derive_continuous. exists (alpha * Rpower t (alpha - 1)).
  now apply is_derive_Rpower.
Qed.

Lemma mass_is : forall alpha l h, 0 < l < h ->
  is_RInt (fun t => Rpower t alpha) l h (antider alpha h - antider alpha l).
Proof.
  intros alpha l h H.
  change (antider alpha h - antider alpha l) with (minus (antider alpha h) (antider alpha l)).
  apply @is_RInt_derive.
  { rewrite Rmin_left, Rmax_right by lra. intros x Hx. apply antider_derive; lra. }
  { rewrite Rmin_left, Rmax_right by lra. intros x Hx. apply power_continuous; lra. }
Qed.

Lemma mass_value : forall alpha l h, 0 < l < h ->
  mass_under alpha l h = antider alpha h - antider alpha l.
Proof. intros. unfold mass_under. apply is_RInt_unique. now apply mass_is. Qed.

Lemma mass_pos : forall alpha l h, 0 < l < h -> 0 < mass_under alpha l h.
Proof. intros alpha l h H. rewrite mass_value by exact H. pose proof (antider_incr alpha l h H). lra. Qed.

Lemma mass_quotient : forall b l h, 0 < l < h -> b <> 0 ->
  mass_under (b - 1) l h = (Rpower h b - Rpower l b) / b.
Proof.
  intros b l h H Hb. rewrite mass_value by exact H. unfold antider.
  destruct (Req_EM_T (b - 1) (-1)) as [E|_]; [exfalso; lra|].
  replace (1 + (b - 1)) with b by ring. field. exact Hb.
Qed.

Lemma log_size_ge : forall l h t, 0 < l <= t -> t <= h -> Rabs (ln t) <= log_size l h.
Proof.
  intros l h t Hl Hh. unfold log_size.
  assert (A : ln l <= ln t) by (apply ln_le_mono; lra).
  assert (B : ln t <= ln h) by (apply ln_le_mono; lra).
  pose proof (Rmax_l (Rabs (ln l)) (Rabs (ln h))). pose proof (Rmax_r (Rabs (ln l)) (Rabs (ln h))).
  pose proof (Rle_abs (ln h)). pose proof (Rle_abs (- ln l)) as C. rewrite Rabs_Ropp in C.
  apply Rabs_le. lra.
Qed.

Lemma mass_shift_le : forall a a' l h, 0 < l < h ->
  mass_under a' l h <= exp (Rabs (a' - a) * log_size l h) * mass_under a l h.
Proof.
  intros a a' l h H. unfold mass_under.
  set (k := exp (Rabs (a' - a) * log_size l h)).
  replace (k * RInt (fun t => Rpower t a) l h) with (RInt (fun t => scal k (Rpower t a)) l h).
  2:{ apply is_RInt_unique. change (k * ?x) with (scal k x). apply @is_RInt_scal.
      apply @RInt_correct. exists (antider a h - antider a l). now apply mass_is. }
  apply RInt_le.
  { lra. }
  { exists (antider a' h - antider a' l). now apply mass_is. }
  { apply @ex_RInt_scal. exists (antider a h - antider a l). now apply mass_is. }
  intros t Ht. unfold scal; simpl; unfold mult; simpl.
  unfold Rpower, k. rewrite <- exp_plus. apply exp_mono.
  assert (A : Rabs (ln t) <= log_size l h) by (apply log_size_ge; lra).
  assert (B : (a' - a) * ln t <= Rabs (a' - a) * log_size l h).
  { eapply Rle_trans; [apply Rle_abs|]. rewrite Rabs_mult. apply Rmult_le_compat_l; [apply Rabs_pos|exact A]. }
  lra.
Qed.

Lemma mass_shift : forall a a' l h, 0 < l < h ->
  Rabs (ln (mass_under a' l h) - ln (mass_under a l h)) <= Rabs (a' - a) * log_size l h.
Proof.
  assert (G : forall a a' l h, 0 < l < h ->
    ln (mass_under a' l h) - ln (mass_under a l h) <= Rabs (a' - a) * log_size l h).
  { intros a a' l h H. pose proof (mass_pos a l h H) as P. pose proof (mass_pos a' l h H) as P'.
    pose proof (mass_shift_le a a' l h H) as M.
    apply ln_le_mono in M; [|exact P']. rewrite ln_mult in M; [|apply exp_pos|exact P].
    rewrite ln_exp in M. lra. }
  intros a a' l h H. apply Rabs_le. split; [|now apply G].
  pose proof (G a' a l h H) as M. replace (a - a') with (- (a' - a)) in M by ring.
  rewrite Rabs_Ropp in M. lra.
Qed.

(** ** Amplification *)

Lemma amplification_le : forall b l h, 0 < l < h -> b <> 0 ->
  amplification b l h <= 1 + 2 / (Rabs b * (ln h - ln l)).
Proof.
  assert (G : forall P Q t, 0 < Q -> 0 < t -> P = Q * exp t -> (P + Q) / Rabs (P - Q) <= 1 + 2 / t).
  { intros P Q t HQ Ht ->. pose proof (exp_ineq1_le t) as E.
    replace (Q * exp t - Q) with (Q * (exp t - 1)) by ring.
    rewrite Rabs_pos_eq by nra.
    apply Rmult_le_reg_r with (Q * (exp t - 1) * t). { apply Rmult_lt_0_compat; [nra|lra]. }
    replace ((Q * exp t + Q) / (Q * (exp t - 1)) * (Q * (exp t - 1) * t)) with (Q * ((exp t + 1) * t)) by (field; lra).
    replace ((1 + 2 / t) * (Q * (exp t - 1) * t)) with (Q * ((t + 2) * (exp t - 1))) by (field; lra).
    apply Rmult_le_compat_l; [lra|]. nra. }
  intros b l h H Hb. unfold amplification.
  assert (L : ln l < ln h) by (apply ln_increasing; lra).
  pose proof (Rpower_pos l b) as Pl. pose proof (Rpower_pos h b) as Ph.
  destruct (Rlt_or_le 0 b) as [B|B].
  { rewrite (Rabs_pos_eq b) by lra. apply G; [exact Pl|nra|].
    unfold Rpower. rewrite <- exp_plus. f_equal. ring. }
  { rewrite (Rabs_left b) by lra.
    rewrite <- (Rabs_Ropp (Rpower h b - Rpower l b)), Ropp_minus_distr, (Rplus_comm (Rpower h b)).
    apply G; [exact Ph|nra|]. unfold Rpower. rewrite <- exp_plus. f_equal. ring. }
Qed.

Section Rounded.

Variables emin prec : Z.
Context {Hprec : Prec_gt_0 prec}.
Variables e eta : R.
Variable flog : R -> R.
Variable fpow : R -> R -> R.
Hypothesis He : 0 <= e.
Hypothesis Heta : 0 <= eta.
Hypothesis Alog : accurate emin prec e eta (fun x => 0 < x) ln flog.
Hypothesis Apow : accurate_power emin prec e eta fpow.

Notation u := (unit_roundoff prec).
Notation flt := (is_float emin prec).
Notation fl := (fl emin prec).
Notation tiny := (/ 2 * bpow radix2 emin).

Lemma tiny_pos : 0 < tiny.
Proof. pose proof (bpow_gt_0 radix2 emin). lra. Qed.

Lemma fl_ln_pos : forall y, 0 < y -> fl_ln flog y = Fin (flog y).
Proof. intros y H. unfold fl_ln. destruct (total_order_T 0 y) as [[A|A]|A]; [reflexivity|lra|lra]. Qed.

Lemma fl_ln_zero : fl_ln flog 0 = NInf.
Proof. unfold fl_ln. destruct (total_order_T 0 0) as [[A|A]|A]; [lra|reflexivity|lra]. Qed.

(** the logarithm of a rounded number *)
Lemma log_of : forall y Z0 q r, flt y -> 0 < Z0 -> 0 < y -> Rabs (ln y - ln Z0) <= r -> r = q ->
  flt (flog y) /\ Rabs (flog y - ln Z0) <= after_log e eta (ln Z0) q.
Proof.
  intros y Z0 q r Fy HZ Hy D ->. destruct (Alog y Fy Hy) as [F A]. split; [exact F|].
  unfold after_log.
  assert (B : Rabs (ln y) <= Rabs (ln Z0) + q).
  { replace (ln y) with (ln Z0 + (ln y - ln Z0)) by ring. eapply Rle_trans; [apply Rabs_triang|]. lra. }
  replace (flog y - ln Z0) with ((ln y - ln Z0) + (flog y - ln y)) by ring.
  eapply Rle_trans; [apply Rabs_triang|].
  assert (e * Rabs (ln y) <= e * (Rabs (ln Z0) + q)) by (apply Rmult_le_compat_l; assumption).
  lra.
Qed.

Lemma exponent_nonzero : forall alpha, flt 1 -> flt alpha -> alpha <> -1 ->
  fl (1 + alpha) <> 0 /\ Rabs (fl (1 + alpha) - (1 + alpha)) <= u * Rabs (1 + alpha).
Proof.
  intros alpha F1 Fa Ha. pose proof (fl_add emin prec 1 alpha F1 Fa) as A.
  split; [|exact A]. intros Z0. rewrite Z0 in A. 
  replace (0 - (1 + alpha)) with (- (1 + alpha)) in A by ring. rewrite Rabs_Ropp in A.
  pose proof (u_bounds prec). assert (0 < Rabs (1 + alpha)) by (apply Rabs_pos_lt; lra). nra.
Qed.

Lemma norm_error : forall alpha l h, flt 1 -> flt alpha -> flt l -> flt h -> 0 < l < h -> alpha <> -1 ->
  let b := fl (1 + alpha) in
  let q := quotient_error emin prec e eta b l h in
  q < 1 ->
  exists y, fl_log_norm emin prec flog fpow alpha l h = Fin y /\ flt y /\
    Rabs (y - ln (mass_under alpha l h)) <=
      after_log e eta (ln (mass_under alpha l h)) (of_relative q + u * Rabs (1 + alpha) * log_size l h).
Proof.
  intros alpha l h F1 Fa Fl Fh H Ha b q Hq.
  destruct (exponent_nonzero alpha F1 Fa Ha) as [Hb Db]. fold b in Hb, Db.
  unfold fl_log_norm. destruct (Req_EM_T alpha (-1)) as [X|_]; [contradiction|]. cbv zeta. fold b.
  assert (Fb : flt b) by exact (fl_float emin prec _).
  destruct (Apow h b Fh Fb ltac:(lra)) as [FP AP]. destruct (Apow l b Fl Fb ltac:(lra)) as [FQ AQ].
  assert (HP : 0 < Rpower h b) by apply Rpower_pos. assert (HQ : 0 < Rpower l b) by apply Rpower_pos.
  assert (N0 : 0 < (Rpower h b - Rpower l b) / b) by (apply Rpower_diff_pos; assumption).
  assert (D0 : Rpower h b - Rpower l b <> 0) by (apply Rpower_diff_ne; assumption).
  assert (M : mass_under (b - 1) l h = (Rpower h b - Rpower l b) / b) by (apply mass_quotient; assumption).
  unfold q, quotient_error, amplification in *. cbv zeta in *.
  set (P := Rpower h b) in *. set (Q := Rpower l b) in *. set (N := (P - Q) / b) in *.
  set (P' := fpow h b) in *. set (Q' := fpow l b) in *.
  assert (A0 : 0 < Rabs (P - Q)) by (apply Rabs_pos_lt; exact D0).
  assert (B0 : 0 < Rabs b) by (apply Rabs_pos_lt; exact Hb).
  set (c := e * ((P + Q) / Rabs (P - Q)) + 2 * eta / Rabs (P - Q)) in *.
  pose proof (u_bounds prec) as U.
  assert (C0 : 0 <= c).
  { unfold c. apply Rplus_le_le_0_compat.
    { apply Rmult_le_pos; [exact He|]. apply Rle_div_r; [exact A0|]. lra. }
    { apply Rle_div_r; [exact A0|]. lra. } }
  assert (S1 : Rabs ((P' - Q') - (P - Q)) <= c * Rabs (P - Q)).
  { replace (c * Rabs (P - Q)) with ((e * P + eta) + (e * Q + eta)) by (unfold c; field; lra).
    replace ((P' - Q') - (P - Q)) with ((P' - P) - (Q' - Q)) by ring.
    eapply Rle_trans; [apply Rabs_triang|]. rewrite Rabs_Ropp. lra. }
  assert (S2 : Rabs (P' - Q') <= (1 + c) * Rabs (P - Q)).
  { replace (P' - Q') with ((P - Q) + ((P' - Q') - (P - Q))) by ring.
    eapply Rle_trans; [apply Rabs_triang|]. lra. }
  set (D1 := fl (P' - Q')) in *.
  assert (S3 : Rabs (D1 - (P - Q)) <= ((1 + c) * (1 + u) - 1) * Rabs (P - Q)).
  { pose proof (fl_sub emin prec P' Q' FP FQ) as E1. fold D1 in E1.
    replace (D1 - (P - Q)) with ((D1 - (P' - Q')) + ((P' - Q') - (P - Q))) by ring.
    eapply Rle_trans; [apply Rabs_triang|].
    assert (u * Rabs (P' - Q') <= u * ((1 + c) * Rabs (P - Q))) by (apply Rmult_le_compat_l; lra).
    lra. }
  set (k := (1 + c) * (1 + u) - 1) in *. assert (K0 : 0 <= k) by (unfold k; nra).
  assert (NA : N = Rabs (P - Q) / Rabs b).
  { rewrite <- Rabs_div by exact Hb. fold N. rewrite Rabs_pos_eq; lra. }
  assert (S4 : Rabs (D1 / b - N) <= k * N).
  { replace (D1 / b - N) with ((D1 - (P - Q)) / b) by (unfold N; field; exact Hb).
    rewrite Rabs_div by exact Hb. rewrite NA.
    replace (k * (Rabs (P - Q) / Rabs b)) with ((k * Rabs (P - Q)) / Rabs b) by (field; lra).
    apply Rmult_le_compat_r; [left; now apply Rinv_0_lt_compat|exact S3]. }
  set (D := fl (D1 / b)) in *.
  set (q1 := (1 + c) * (1 + u) * (1 + u) - 1 + tiny / N) in *.
  assert (T0 := tiny_pos).
  assert (TN : 0 < tiny / N) by (apply Rdiv_lt_0_compat; assumption).
  assert (Q1 : 0 <= q1) by (unfold q1; nra).
  assert (S5 : Rabs (D - N) <= q1 * N).
  { pose proof (fl_err emin prec (D1 / b)) as E1. fold D in E1.
    assert (S6 : Rabs (D1 / b) <= (1 + k) * N).
    { replace (D1 / b) with (N + (D1 / b - N)) by ring. eapply Rle_trans; [apply Rabs_triang|].
      rewrite (Rabs_pos_eq N) by lra. lra. }
    replace (D - N) with ((D - D1 / b) + (D1 / b - N)) by ring.
    eapply Rle_trans; [apply Rabs_triang|].
    assert (S7 : u * Rabs (D1 / b) <= u * ((1 + k) * N)) by (apply Rmult_le_compat_l; lra).
    replace (q1 * N) with (u * ((1 + k) * N) + k * N + tiny).
    2:{ unfold q1, k. field. lra. }
    lra. }
  destruct (ln_perturbed q1 N D N0 ltac:(lra) S5) as [DP DL].
  exists (flog D). rewrite fl_ln_pos by exact DP. split; [reflexivity|].
  apply (log_of D (mass_under alpha l h) _ (of_relative q1 + u * Rabs (1 + alpha) * log_size l h)).
  { exact (fl_float emin prec _). } { now apply mass_pos. } { exact DP. } 2:{ reflexivity. }
  replace (ln D - ln (mass_under alpha l h)) with ((ln D - ln N) + (ln N - ln (mass_under alpha l h))) by ring.
  eapply Rle_trans; [apply Rabs_triang|]. apply Rplus_le_compat; [exact DL|].
  rewrite <- M. eapply Rle_trans; [now apply mass_shift|].
  apply Rmult_le_compat_r. { eapply Rle_trans; [apply Rabs_pos|]. apply Rmax_l. }
  replace (b - 1 - alpha) with (b - (1 + alpha)) by ring. exact Db.
Qed.

Lemma norm_error_minus_one : forall l h, flt l -> flt h -> 0 < l < h ->
  let q := log_difference_error prec e eta l h in
  q < 1 ->
  exists y, fl_log_norm emin prec flog fpow (-1) l h = Fin y /\ flt y /\
    Rabs (y - ln (mass_under (-1) l h)) <= after_log e eta (ln (mass_under (-1) l h)) (of_relative q).
Proof.
  intros l h Fl Fh H q Hq.
  unfold fl_log_norm. destruct (Req_EM_T (-1) (-1)) as [_|X]; [|lra].
  destruct (Alog h Fh ltac:(lra)) as [FP AP]. destruct (Alog l Fl ltac:(lra)) as [FQ AQ].
  assert (L : ln l < ln h) by (apply ln_increasing; lra).
  assert (M : mass_under (-1) l h = ln h - ln l).
  { rewrite mass_value by exact H. unfold antider. destruct (Req_EM_T (-1) (-1)); [reflexivity|lra]. }
  unfold q, log_difference_error in *. rewrite M.
  set (N := ln h - ln l) in *. assert (N0 : 0 < N) by (unfold N; lra).
  set (c := (e * (Rabs (ln h) + Rabs (ln l)) + 2 * eta) / N) in *.
  pose proof (u_bounds prec) as U.
  pose proof (Rabs_pos (ln h)) as Ph. pose proof (Rabs_pos (ln l)) as Pl.
  assert (C0 : 0 <= c).
  { unfold c. apply Rle_div_r; [exact N0|]. rewrite Rmult_0_l.
    apply Rplus_le_le_0_compat; [apply Rmult_le_pos|]; lra. }
  assert (S1 : Rabs ((flog h - flog l) - N) <= c * N).
  { replace (c * N) with ((e * Rabs (ln h) + eta) + (e * Rabs (ln l) + eta)) by (unfold c; field; lra).
    replace ((flog h - flog l) - N) with ((flog h - ln h) - (flog l - ln l)) by (unfold N; ring).
    eapply Rle_trans; [apply Rabs_triang|]. rewrite Rabs_Ropp. lra. }
  set (D := fl (flog h - flog l)) in *.
  set (q1 := (1 + c) * (1 + u) - 1) in *. assert (Q1 : 0 <= q1) by (unfold q1; nra).
  assert (S2 : Rabs (D - N) <= q1 * N).
  { pose proof (fl_sub emin prec _ _ FP FQ) as E1. fold D in E1.
    assert (S6 : Rabs (flog h - flog l) <= (1 + c) * N).
    { replace (flog h - flog l) with (N + ((flog h - flog l) - N)) by ring. eapply Rle_trans; [apply Rabs_triang|].
      rewrite (Rabs_pos_eq N) by lra. lra. }
    replace (D - N) with ((D - (flog h - flog l)) + ((flog h - flog l) - N)) by ring.
    eapply Rle_trans; [apply Rabs_triang|].
    assert (u * Rabs (flog h - flog l) <= u * ((1 + c) * N)) by (apply Rmult_le_compat_l; lra).
    unfold q1. lra. }
  destruct (ln_perturbed q1 N D N0 ltac:(lra) S2) as [DP DL].
  exists (flog D). rewrite fl_ln_pos by exact DP. split; [reflexivity|].
  apply (log_of D N _ (of_relative q1)); [exact (fl_float emin prec _)|exact N0|exact DP|exact DL|reflexivity].
Qed.

Lemma density_error : forall x alpha l h y r, flt alpha -> flt x -> 0 < x ->
  fl_log_norm emin prec flog fpow alpha l h = Fin y -> flt y ->
  Rabs (y - ln (mass_under alpha l h)) <= r ->
  exists v, fl_power_log_prob emin prec flog fpow x alpha l h = Fin v /\
    Rabs (v - exact_log_density x alpha l h) <=
      after_minus prec (exact_log_density x alpha l h) (product_error emin prec e eta alpha x) r.
Proof.
  intros x alpha l h y r Fa Fx Hx E Fy B. unfold fl_power_log_prob. rewrite E. simpl.
  eexists. split; [reflexivity|].
  destruct (Alog x Fx Hx) as [Fg Ag].
  pose proof (u_bounds prec) as U.
  set (p := fl (alpha * flog x)) in *.
  assert (Fp : flt p) by exact (fl_float emin prec _).
  assert (D1 : Rabs (p - alpha * ln x) <= product_error emin prec e eta alpha x).
  { unfold product_error. cbv zeta. set (d := Rabs alpha * (e * Rabs (ln x) + eta)).
    assert (D2 : Rabs (alpha * flog x - alpha * ln x) <= d).
    { replace (alpha * flog x - alpha * ln x) with (alpha * (flog x - ln x)) by ring.
      rewrite Rabs_mult. apply Rmult_le_compat_l; [apply Rabs_pos|exact Ag]. }
    assert (D3 : Rabs (alpha * flog x) <= Rabs alpha * Rabs (ln x) + d).
    { replace (alpha * flog x) with (alpha * ln x + (alpha * flog x - alpha * ln x)) by ring.
      eapply Rle_trans; [apply Rabs_triang|]. rewrite (Rabs_mult alpha (ln x)). lra. }
    pose proof (fl_err emin prec (alpha * flog x)) as E1. fold p in E1.
    replace (p - alpha * ln x) with ((p - alpha * flog x) + (alpha * flog x - alpha * ln x)) by ring.
    eapply Rle_trans; [apply Rabs_triang|].
    assert (u * Rabs (alpha * flog x) <= u * (Rabs alpha * Rabs (ln x) + d)) by (apply Rmult_le_compat_l; lra).
    lra. }
  set (a := product_error emin prec e eta alpha x) in *.
  unfold after_minus. set (L := exact_log_density x alpha l h).
  assert (D2 : Rabs ((p - y) - L) <= a + r).
  { replace ((p - y) - L) with ((p - alpha * ln x) - (y - ln (mass_under alpha l h))) by (unfold L, exact_log_density; ring).
    eapply Rle_trans; [apply Rabs_triang|]. rewrite Rabs_Ropp. lra. }
  assert (D3 : Rabs (p - y) <= Rabs L + a + r).
  { replace (p - y) with (L + ((p - y) - L)) by ring. eapply Rle_trans; [apply Rabs_triang|]. lra. }
  pose proof (fl_sub emin prec p y Fp Fy) as E1.
  replace (fl (p - y) - L) with ((fl (p - y) - (p - y)) + ((p - y) - L)) by ring.
  eapply Rle_trans; [apply Rabs_triang|].
  assert (u * Rabs (p - y) <= u * (Rabs L + a + r)) by (apply Rmult_le_compat_l; lra).
  lra.
Qed.

End Rounded.

(** ** Cancellation *)

Section Cancels.

Variables emin prec : Z.
Context {Hprec : Prec_gt_0 prec}.
Hypothesis Hemin : (emin <= - prec - 1)%Z.

Notation u := (unit_roundoff prec).
Notation flt := (is_float emin prec).
Notation fl := (fl emin prec).

Lemma one_above : forall x, 1 <= x < 1 + u -> fl x = 1.
Proof.
  intros x [L M]. apply Rle_antisym.
  2:{ rewrite <- (fl_id emin prec 1) at 1. { apply (fl_mono emin prec). exact L. }
      apply (float_1 emin prec). exact Hemin. }
  assert (V : Valid_exp (FLT_exp emin prec)) by (apply FLT_exp_valid; exact Hprec).
  assert (F1 : generic_format radix2 (FLT_exp emin prec) 1) by (apply (float_1 emin prec); exact Hemin).
  unfold Model_Rounding.fl. apply round_N_le_midp; [exact V|exact F1|].
  rewrite succ_eq_pos by lra.
  assert (E : ulp radix2 (FLT_exp emin prec) 1 = 2 * u).
  { change 1 with (bpow radix2 0). rewrite ulp_bpow.
    replace (FLT_exp emin prec (0 + 1)) with (- prec + 1)%Z by (unfold FLT_exp; unfold Prec_gt_0 in Hprec; lia).
    rewrite bpow_plus. simpl (bpow radix2 1). unfold unit_roundoff. change (IZR (Z.pow_pos 2 1)) with 2. ring. }
  rewrite E. lra.
Qed.

Lemma power_rounds_to_one : forall x b, 0 < x -> Rabs b * Rabs (ln x) <= u / 2 -> fl (Rpower x b) = 1.
Proof.
  intros x b Hx H. rewrite <- Rabs_mult in H. unfold Rpower. set (t := b * ln x) in *.
  pose proof (u_bounds prec) as U.
  destruct (Rle_or_lt 0 t) as [T|T].
  { rewrite Rabs_pos_eq in H by exact T. apply one_above. split.
    { pose proof (exp_ineq1_le t). lra. }
    assert (E : exp t <= / (1 - t)) by (apply exp_le_inv; lra).
    eapply Rle_lt_trans; [exact E|].
    apply Rmult_lt_reg_r with (1 - t); [lra|]. rewrite Rinv_l by lra. nra. }
  { rewrite Rabs_left in H by exact T. apply (near_one emin prec).
    { exact Hemin. }
    split.
    { assert (bpow radix2 (- prec - 1) = u / 2) as ->.
      { replace (- prec - 1)%Z with (- prec + -1)%Z by ring. rewrite bpow_plus. unfold unit_roundoff.
        simpl (bpow radix2 (-1)). change (IZR (Z.pow_pos 2 1)) with 2. lra. }
      pose proof (exp_ineq1 t ltac:(lra)). lra. }
    { rewrite <- exp_0. apply exp_mono. lra. } }
Qed.

Lemma norm_cancels : forall flog alpha l h, alpha <> -1 -> 0 < l -> 0 < h ->
  Rabs (fl (1 + alpha)) * log_size l h <= u / 2 ->
  fl_log_norm emin prec flog (fun x y => fl (Rpower x y)) alpha l h = NInf.
Proof.
  intros flog alpha l h Ha Hl Hh H. unfold fl_log_norm.
  destruct (Req_EM_T alpha (-1)) as [X|_]; [contradiction|]. cbv zeta.
  unfold log_size in H. set (b := fl (1 + alpha)) in *.
  rewrite (power_rounds_to_one h b), (power_rounds_to_one l b).
  { replace (1 - 1) with 0 by ring.
    assert (Z0 : fl 0 = 0) by (apply (fl_id emin prec); apply generic_format_0).
    rewrite Z0. unfold Rdiv. rewrite Rmult_0_l, Z0. apply fl_ln_zero. }
  { exact Hl. }
  { eapply Rle_trans; [|exact H]. apply Rmult_le_compat_l; [apply Rabs_pos|apply Rmax_l]. }
  { exact Hh. }
  { eapply Rle_trans; [|exact H]. apply Rmult_le_compat_l; [apply Rabs_pos|apply Rmax_r]. }
Qed.

End Cancels.
