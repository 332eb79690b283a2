(** Lemmas about the rounded truncated normal. *)
From Coq Require Import Reals Lra Lia ZArith.
From Coquelicot Require Import Coquelicot.
From Flocq Require Import Core.
From Verif Require Import Model_X Model_Gauss Proofs_Gauss Proofs_GaussianSpin Proofs_Mass.
From Verif Require Import Model_Rounding Spec_Rounding Proofs_Rounding.
From Verif Require Import Model_RoundedPower Spec_RoundedPower Proofs_RoundedPower.
From Verif Require Import Model_RoundedNormal Spec_RoundedNormal.
Open Scope R_scope.

Lemma phi_le_1 : forall x, phi x <= 1.
Proof.
  intros x. eapply Rle_trans; [apply phi_le|]. rewrite <- exp_0. apply exp_mono.
  pose proof (Rle_0_sqr x) as S0. unfold Rsqr in S0. lra.
Qed.

Lemma ndtr_lipschitz : forall x y, Rabs (ndtr x - ndtr y) <= Rabs (x - y).
Proof.
  assert (G : forall x y, x <= y -> Rabs (ndtr x - ndtr y) <= Rabs (x - y)).
  { intros x y [H| ->].
    2:{ rewrite !Rminus_diag_eq by reflexivity. lra. }
    destruct (MVT_gen ndtr x y phi) as (c & _ & E).
    { intros t _. apply ndtr_derive. }
    { intros t _. apply continuity_pt_filterlim. apply (ex_derive_continuous ndtr). eexists. apply ndtr_derive. }
    pose proof (phi_pos c). pose proof (phi_le_1 c).
    rewrite (Rabs_minus_sym (ndtr x)), (Rabs_minus_sym x), E, Rabs_mult.
    rewrite (Rabs_pos_eq (phi c)) by lra.
    rewrite <- (Rmult_1_l (Rabs (y - x))) at 2. apply Rmult_le_compat_r; [apply Rabs_pos|lra]. }
  intros x y. destruct (Rle_or_lt x y) as [H|H]; [now apply G|].
  rewrite (Rabs_minus_sym (ndtr x)), (Rabs_minus_sym x). apply G. lra.
Qed.

Lemma ln_2PI_pos : 0 < ln (2 * PI).
Proof. rewrite <- ln_1. apply ln_increasing; [lra|]. pose proof PI2_1. lra. Qed.

Lemma exact_value : forall x loc scale low high, 0 < scale -> low < high ->
  exact_truncnorm x loc scale low high =
  - (((x - loc) / scale * ((x - loc) / scale) + ln (2 * PI)) / 2) - ln scale - ln (normal_mass loc scale low high).
Proof.
  intros x loc scale low high Hs H. unfold exact_truncnorm, normal_mass.
  pose proof (ndtr_incr _ _ (std_order loc scale low high Hs H)) as M.
  unfold norm_pdf. pose proof (phi_pos ((x - loc) / scale)) as P.
  rewrite ln_quotient; [|now apply Rdiv_lt_0_compat|lra]. rewrite ln_quotient by assumption.
  rewrite <- phi_exp, ln_exp. lra.
Qed.

Section Rounded.

Variables emin prec : Z.
Context {Hprec : Prec_gt_0 prec}.

Notation u := (unit_roundoff prec).
Notation flt := (is_float emin prec).
Notation fl := (fl emin prec).
Notation tiny := (/ 2 * bpow radix2 emin).
Notation rounded := (rounded emin prec).
Notation standard_error := (standard_error emin prec).

Lemma rounded_ok : forall v r a, Rabs (a - v) <= r -> Rabs (fl a - v) <= rounded v r.
Proof.
  intros v r a H. pose proof (u_bounds prec) as U. pose proof (fl_err emin prec a) as E.
  unfold Spec_RoundedNormal.rounded.
  assert (A : Rabs a <= Rabs v + r).
  { replace a with (v + (a - v)) by ring. eapply Rle_trans; [apply Rabs_triang|]. lra. }
  replace (fl a - v) with ((fl a - a) + (a - v)) by ring.
  eapply Rle_trans; [apply Rabs_triang|].
  assert (u * Rabs a <= u * (Rabs v + r)) by (apply Rmult_le_compat_l; lra). lra.
Qed.

Lemma rounded_pos : forall v r, 0 <= r -> 0 <= rounded v r.
Proof.
  intros v r H. unfold Spec_RoundedNormal.rounded. pose proof (u_bounds prec). pose proof (tiny_pos emin).
  pose proof (Rabs_pos v). assert (0 <= u * (Rabs v + r)) by (apply Rmult_le_pos; lra). lra.
Qed.

Lemma standard_error_pos : forall z, 0 <= standard_error z.
Proof.
  intros z. apply rounded_pos. apply Rmult_le_pos; [pose proof (u_bounds prec); lra|apply Rabs_pos].
Qed.

Lemma standard_ok : forall x loc scale, flt x -> flt loc -> 0 < scale ->
  Rabs (fl_standard emin prec x loc scale - (x - loc) / scale) <= standard_error ((x - loc) / scale).
Proof.
  intros x loc scale Fx Fl Hs. unfold fl_standard. apply rounded_ok.
  pose proof (fl_sub emin prec x loc Fx Fl) as E.
  replace (fl (x - loc) / scale - (x - loc) / scale) with ((fl (x - loc) - (x - loc)) / scale) by (field; lra).
  rewrite !Rabs_div by lra. rewrite (Rabs_pos_eq scale) by lra.
  unfold Rdiv. rewrite <- Rmult_assoc. apply Rmult_le_compat_r; [left; now apply Rinv_0_lt_compat|exact E].
Qed.

Lemma standard_float : forall x loc scale, flt (fl_standard emin prec x loc scale).
Proof. intros. exact (fl_float emin prec _). Qed.

Lemma fl_0 : fl 0 = 0.
Proof. apply (fl_id emin prec). apply generic_format_0. Qed.

Lemma standard_le_0 : forall x loc scale, 0 < scale -> x <= loc -> fl_standard emin prec x loc scale <= 0.
Proof.
  intros x loc scale Hs H. unfold fl_standard.
  assert (A : fl (x - loc) <= 0) by (rewrite <- fl_0; apply (fl_mono emin prec); lra).
  rewrite <- fl_0. apply (fl_mono emin prec).
  apply Rmult_le_reg_r with scale; [exact Hs|]. unfold Rdiv. rewrite Rmult_assoc, Rinv_l by lra. lra.
Qed.

Lemma standard_pos : forall x loc scale, flt x -> flt loc -> 0 < scale -> bpow radix2 emin * scale <= (x - loc) / 2 ->
  0 < fl_standard emin prec x loc scale.
Proof.
  intros x loc scale Fx Fl Hs H. unfold fl_standard.
  pose proof (bpow_gt_0 radix2 emin) as B. pose proof (u_bounds prec) as U.
  assert (P : 0 < x - loc) by nra.
  pose proof (fl_sub emin prec x loc Fx Fl) as E. rewrite (Rabs_pos_eq (x - loc)) in E by lra.
  apply Rabs_le_inv in E.
  apply Rlt_le_trans with (bpow radix2 emin); [exact B|].
  rewrite <- (fl_id emin prec (bpow radix2 emin)).
  { apply (fl_mono emin prec). apply Rle_div_r; [exact Hs|]. nra. }
  apply (power_float emin prec). lia.
Qed.

Variables e eta : R.
Variables fexp flog1p flog fndtr flog_ndtr : R -> R.
Variable constant : R.
Hypothesis He : 0 <= e.
Hypothesis Heta : 0 <= eta.
Hypothesis Alog : accurate emin prec e eta (fun x => 0 < x) ln flog.
Hypothesis Alog1p : accurate emin prec e eta (fun x => -1 < x) (fun x => ln (1 + x)) flog1p.
Hypothesis Andtr : accurate emin prec e eta (fun _ => True) ndtr fndtr.
Hypothesis Fconst : flt constant.
Hypothesis Aconst : Rabs (constant - ln (2 * PI)) <= u * ln (2 * PI).

Lemma normaliser_ok : forall loc scale low high, flt loc -> flt scale -> flt low -> flt high ->
  0 < scale -> low <= loc < high -> bpow radix2 emin * scale <= (high - loc) / 2 ->
  let N := normal_mass loc scale low high in
  let q := mass_error emin prec e eta ((low - loc) / scale) ((high - loc) / scale) / N in
  q < 1 ->
  exists y, fl_truncnorm_log_norm emin prec fexp flog1p fndtr flog_ndtr
              (fl_standard emin prec low loc scale) (fl_standard emin prec high loc scale) = Num y /\ flt y /\
    Rabs (y - ln N) <= after_log e eta (ln N) (of_relative q).
Proof.
  intros loc scale low high Fo Fs Fl Fh Hs Hl Hh N q Hq.
  set (a0 := (low - loc) / scale) in *. set (b0 := (high - loc) / scale) in *.
  pose proof (standard_ok low loc scale Fl Fo Hs) as Ea. pose proof (standard_ok high loc scale Fh Fo Hs) as Eb.
  fold a0 in Ea. fold b0 in Eb.
  assert (La : fl_standard emin prec low loc scale <= 0) by (apply standard_le_0; lra).
  assert (Lb : 0 < fl_standard emin prec high loc scale) by (apply standard_pos; assumption).
  pose proof (standard_float low loc scale) as Fa. pose proof (standard_float high loc scale) as Fb.
  set (a := fl_standard emin prec low loc scale) in *. set (b := fl_standard emin prec high loc scale) in *.
  unfold fl_truncnorm_log_norm. destruct (Rle_dec b 0) as [X|_]; [lra|]. destruct (Rlt_dec 0 a) as [X|_]; [lra|].
  pose proof (u_bounds prec) as U.
  assert (NP : 0 < N).
  { unfold N, normal_mass. pose proof (ndtr_incr _ _ (std_order loc scale low high Hs ltac:(lra))). lra. }
  assert (Fmb : flt (- b)) by (now apply (float_opp emin prec)).
  destruct (Andtr a Fa I) as [Fna Ana]. destruct (Andtr (- b) Fmb I) as [Fnb Anb].
  pose proof (ndtr_bounds a) as Ba. pose proof (ndtr_bounds (- b)) as Bb.
  rewrite (Rabs_pos_eq (ndtr a)) in Ana by lra. rewrite (Rabs_pos_eq (ndtr (- b))) in Anb by lra.
  pose proof (ndtr_opp b) as Ob.
  assert (AB : ndtr a < ndtr b) by (apply ndtr_incr; lra).
  set (D := - fndtr a - fndtr (- b)).
  assert (S1 : Rabs (D - (ndtr b - ndtr a - 1)) <= e + 2 * eta).
  { replace (D - (ndtr b - ndtr a - 1)) with ((ndtr a - fndtr a) + (ndtr (- b) - fndtr (- b))) by (unfold D; lra).
    eapply Rle_trans; [apply Rabs_triang|].
    rewrite (Rabs_minus_sym (ndtr a)), (Rabs_minus_sym (ndtr (- b))).
    assert (e * ndtr a + e * ndtr (- b) <= e * 1).
    { rewrite <- Rmult_plus_distr_l. apply Rmult_le_compat_l; lra. }
    lra. }
  assert (S2 : Rabs D <= 1 + e + 2 * eta).
  { replace D with ((ndtr b - ndtr a - 1) + (D - (ndtr b - ndtr a - 1))) by ring.
    eapply Rle_trans; [apply Rabs_triang|].
    assert (Rabs (ndtr b - ndtr a - 1) <= 1) by (apply Rabs_le; lra). lra. }
  assert (S3 : Rabs (fl D - D) <= u * (1 + e + 2 * eta)).
  { unfold D. eapply Rle_trans; [apply (fl_sub emin prec); [now apply (float_opp emin prec)|exact Fnb]|].
    apply Rmult_le_compat_l; [lra|exact S2]. }
  assert (S4 : Rabs (1 + fl D - N) <= q * N).
  { replace (q * N) with (mass_error emin prec e eta a0 b0) by (unfold q; field; lra).
    unfold mass_error.
    pose proof (ndtr_lipschitz a a0) as L1. pose proof (ndtr_lipschitz b b0) as L2.
    replace (1 + fl D - N) with ((fl D - D) + (D - (ndtr b - ndtr a - 1)) + (ndtr b - ndtr b0) + (ndtr a0 - ndtr a))
      by (unfold N, normal_mass; fold a0 b0; ring).
    eapply Rle_trans; [apply Rabs_triang|]. rewrite (Rabs_minus_sym (ndtr a0)).
    pose proof (Rabs_triang ((fl D - D) + (D - (ndtr b - ndtr a - 1))) (ndtr b - ndtr b0)).
    pose proof (Rabs_triang (fl D - D) (D - (ndtr b - ndtr a - 1))). lra. }
  assert (Q0 : 0 <= q).
  { apply Rmult_le_reg_r with N; [exact NP|]. pose proof (Rabs_pos (1 + fl D - N)). lra. }
  destruct (ln_perturbed q N (1 + fl D) NP ltac:(lra) S4) as [DP DL].
  unfold fl_log1p. rewrite Rcompare_Lt by lra.
  exists (flog1p (fl D)). split; [reflexivity|].
  destruct (Alog1p (fl D) (fl_float emin prec D) ltac:(lra)) as [F A]. split; [exact F|].
  cbv beta in A. unfold after_log. set (r := of_relative q) in *.
  assert (B : Rabs (ln (1 + fl D)) <= Rabs (ln N) + r).
  { replace (ln (1 + fl D)) with (ln N + (ln (1 + fl D) - ln N)) by ring. eapply Rle_trans; [apply Rabs_triang|]. lra. }
  replace (flog1p (fl D) - ln N) with ((ln (1 + fl D) - ln N) + (flog1p (fl D) - ln (1 + fl D))) by ring.
  eapply Rle_trans; [apply Rabs_triang|].
  assert (e * Rabs (ln (1 + fl D)) <= e * (Rabs (ln N) + r)) by (apply Rmult_le_compat_l; assumption).
  lra.
Qed.

Lemma pdf_ok : forall x loc scale, flt x -> flt loc -> flt scale -> 0 < scale ->
  let z := (x - loc) / scale in
  let zz := fl_standard emin prec x loc scale in
  Rabs (fl (fl (- (1 / 2) * fl (fl (zz * zz) + constant)) - flog scale) - (- ((z * z + ln (2 * PI)) / 2) - ln scale))
    <= pdf_error emin prec e eta z scale.
Proof.
  intros x loc scale Fx Fo Fs Hs z zz. unfold pdf_error. cbv zeta.
  pose proof (standard_ok x loc scale Fx Fo Hs) as Ez. fold z zz in Ez.
  pose proof ln_2PI_pos as LP.
  set (dz := standard_error z) in *.
  assert (E1 : Rabs (zz * zz - z * z) <= dz * (2 * Rabs z + dz)).
  { replace (zz * zz - z * z) with ((zz - z) * (2 * z + (zz - z))) by ring. rewrite Rabs_mult.
    apply Rmult_le_compat; [apply Rabs_pos|apply Rabs_pos|exact Ez|].
    eapply Rle_trans; [apply Rabs_triang|]. rewrite Rabs_mult, (Rabs_pos_eq 2) by lra. lra. }
  apply rounded_ok in E1. set (ds := rounded (z * z) (dz * (2 * Rabs z + dz))) in *.
  assert (E2 : Rabs (fl (zz * zz) + constant - (z * z + ln (2 * PI))) <= ds + u * ln (2 * PI)).
  { replace (fl (zz * zz) + constant - (z * z + ln (2 * PI))) with ((fl (zz * zz) - z * z) + (constant - ln (2 * PI))) by ring.
    eapply Rle_trans; [apply Rabs_triang|]. lra. }
  apply rounded_ok in E2. set (dsum := rounded (z * z + ln (2 * PI)) (ds + u * ln (2 * PI))) in *.
  set (s := fl (fl (zz * zz) + constant)) in *.
  assert (E3 : Rabs (- (1 / 2) * s - - ((z * z + ln (2 * PI)) / 2)) <= dsum / 2).
  { replace (- (1 / 2) * s - - ((z * z + ln (2 * PI)) / 2)) with (- ((s - (z * z + ln (2 * PI))) / 2)) by field.
    rewrite Rabs_Ropp. unfold Rdiv. rewrite Rabs_mult, (Rabs_pos_eq (/ 2)) by lra. lra. }
  apply rounded_ok in E3.
  assert (E4 : rounded (- ((z * z + ln (2 * PI)) / 2)) (dsum / 2) = rounded ((z * z + ln (2 * PI)) / 2) (dsum / 2)).
  { unfold Spec_RoundedNormal.rounded. rewrite Rabs_Ropp. reflexivity. }
  rewrite E4 in E3. clear E4.
  destruct (Alog scale Fs Hs) as [_ Al].
  apply rounded_ok.
  match goal with |- Rabs (?f - ?g - (?v - ?l)) <= _ => replace (f - g - (v - l)) with ((f - v) - (g - l)) by ring end.
  eapply Rle_trans; [apply Rabs_triang|]. rewrite Rabs_Ropp. lra.
Qed.

Lemma truncnorm_ok : forall x loc scale low high, flt x -> flt loc -> flt scale -> flt low -> flt high ->
  0 < scale -> low <= x <= high -> low <= loc < high -> bpow radix2 emin * scale <= (high - loc) / 2 ->
  let N := normal_mass loc scale low high in
  let q := mass_error emin prec e eta ((low - loc) / scale) ((high - loc) / scale) / N in
  q < 1 ->
  exists y, fl_truncnorm_logpdf emin prec fexp flog1p flog fndtr flog_ndtr constant x loc scale low high = Fin y /\
    Rabs (y - exact_truncnorm x loc scale low high) <=
      rounded (exact_truncnorm x loc scale low high)
        (pdf_error emin prec e eta ((x - loc) / scale) scale + after_log e eta (ln N) (of_relative q)).
Proof.
  intros x loc scale low high Fx Fo Fs Fl Fh Hs Hx Hl Hh N q Hq.
  destruct (normaliser_ok loc scale low high Fo Fs Fl Fh Hs Hl Hh Hq) as (y & E & Fy & B).
  unfold fl_truncnorm_logpdf. cbv zeta. destruct (Rle_dec scale 0) as [X|_]; [lra|].
  destruct (Rlt_dec x low) as [X|_]; [lra|]. destruct (Rlt_dec high x) as [X|_]; [lra|].
  rewrite E. simpl. eexists. split; [reflexivity|].
  apply rounded_ok. pose proof (pdf_ok x loc scale Fx Fo Fs Hs) as P. cbv zeta in P.
  rewrite exact_value by lra. fold N in B |- *. fold q in B |- *.
  match goal with |- Rabs (?f - y - (?v - ?l)) <= _ => replace (f - y - (v - l)) with ((f - v) - (y - l)) by ring end.
  eapply Rle_trans; [apply Rabs_triang|]. rewrite Rabs_Ropp. lra.
Qed.

End Rounded.

(** ** Cancellation *)

Lemma equal_ends : forall emin prec fexp flog1p flog fndtr flog_ndtr constant x loc scale low high,
  (0 < prec)%Z -> fexp 0 = 1 -> 0 < scale -> low <= x <= high ->
  fl_standard emin prec low loc scale = fl_standard emin prec high loc scale ->
  fl_truncnorm_logpdf emin prec fexp flog1p flog fndtr flog_ndtr constant x loc scale low high = PInf.
Proof.
  intros emin prec fexp flog1p flog fndtr flog_ndtr constant x loc scale low high Hp E0 Hs Hx E.
  assert (L : forall a, fl_logsubexp emin prec fexp flog1p a a = MinusInf).
  { intros a. unfold fl_logsubexp, fl_log1p. rewrite (Rminus_diag_eq a a) by reflexivity.
    rewrite (@fl_0 emin prec), E0. rewrite Rcompare_Eq by lra. reflexivity. }
  unfold fl_truncnorm_logpdf. cbv zeta. destruct (Rle_dec scale 0) as [X|_]; [lra|].
  destruct (Rlt_dec x low) as [X|_]; [lra|]. destruct (Rlt_dec high x) as [X|_]; [lra|].
  rewrite E. set (b := fl_standard emin prec high loc scale). unfold fl_truncnorm_log_norm.
  destruct (Rle_dec b 0) as [B|B]; [rewrite L; reflexivity|].
  destruct (Rlt_dec 0 b) as [C|C]; [rewrite L; reflexivity|lra].
Qed.
