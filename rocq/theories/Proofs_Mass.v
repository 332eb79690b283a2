From Coq Require Import Reals Lra List Bool.
From Coquelicot Require Import Coquelicot.
From Verif Require Import Model_X Spec_X Proofs_X Model_Powerlaw Spec_Density Proofs_Transform Proofs_Powerlaw.
From Verif Require Import Proofs_PowerlawJvp Model_Gauss Proofs_Gauss Model_Constraints Model_Mass.
Import ListNotations.
Open Scope R_scope.

Lemma wexp_add a b : wexp (xadd (Fin a) b) = exp a * wexp b.
Proof. destruct b; simpl; [apply exp_plus|ring..]. Qed.

Lemma is_RInt_scal_R (f : R -> R) a b k v r : is_RInt f a b v -> r = k * v -> is_RInt (fun x => k * f x) a b r.
Proof. intros H ->. exact (is_RInt_scal f a b k v H). Qed.
Lemma is_RInt_const_R (c a b r : R) : r = (b - a) * c -> is_RInt (fun _ => c) a b r.
Proof. intros ->. exact (is_RInt_const a b c). Qed.

(** ** C35 *)
Theorem pmr_normalised alpha beta mmin mmax : 0 < mmin < mmax ->
  integrates_to_2d (pmr_log_prob alpha beta mmin mmax) mmin mmax (fun m1 => mmin / m1) (fun _ => 1) 1.
Proof.
  intros H. exists (fun m1 => wexp (powerlaw_log_prob m1 (- alpha) mmin mmax)). split.
  - intros m1 Hm.
    assert (Hl : 0 < mmin / m1 < 1).
    { split; [apply Rdiv_lt_0_compat; lra|apply Rlt_div_l; lra]. }
    pose proof (powerlaw_normalised beta (mmin / m1) 1 Hl) as N. unfold integrates_to in N.
    apply is_RInt_ext with
      (fun q => wexp (powerlaw_log_prob m1 (- alpha) mmin mmax) * wexp (powerlaw_log_prob q beta (mmin / m1) 1)).
    { intros q _. unfold pmr_log_prob. destruct (Rle_dec m1 mmin); [lra|].
      rewrite log_prob_fin by lra. rewrite wexp_add. reflexivity. }
    apply (is_RInt_scal_R _ _ _ _ 1); [exact N|ring].
  - apply (powerlaw_normalised (- alpha) mmin mmax H).
Qed.

Theorem pmr_sandwich mmin mmax m1 q : 0 < mmin -> 0 < m1 ->
  (mass_ratio_mass_sandwich (Fin mmin) (Fin mmax) (Fin m1) (Fin q) = true
   <-> m1 <= mmax /\ mmin / m1 <= q <= 1).
Proof.
  intros Hm H1. unfold mass_ratio_mass_sandwich. rewrite xmul_fin.
  rewrite !andb_true_iff. rewrite !xleb_le, xltb_lt. rewrite (Rle_div_l mmin q m1) by lra.
  split.
  - intros [[[_ A] B] C]. repeat split; [lra|lra|]. apply Rmult_le_reg_l with m1; lra.
  - intros (A & B & C). repeat split; try lra. rewrite <- (Rmult_1_r m1) at 2. apply Rmult_le_compat_l; lra.
Qed.

Theorem pmr_sample_in_support alpha beta mmin mmax u1 u2 : 0 < mmin < mmax -> 0 <= u1 < 1 -> 0 <= u2 < 1 ->
  exists m1 q, pmr_sample alpha beta mmin mmax u1 u2 = (Fin m1, Fin q)
    /\ mmin <= m1 <= mmax /\ mmin / m1 <= q <= 1.
Proof.
  intros H H1 H2. unfold pmr_sample.
  destruct (cdf_icdf u1 (- alpha) mmin mmax H ltac:(lra)) as (m1 & -> & R1 & _).
  destruct (Req_dec m1 mmin) as [->|Hne].
  - replace (mmin / mmin) with 1 by (field; lra). exists mmin, 1.
    split; [|replace (mmin / mmin) with 1 by (field; lra); lra]. f_equal. unfold powerlaw_icdf. destruct (Req_EM_T beta (-1)).
    + rewrite xdiv_fin' by lra. replace (1 / 1) with 1 by field. rewrite xpower_pos by lra.
      rewrite xmul_fin. f_equal. unfold Rpower. rewrite ln_1, Rmult_0_r, exp_0. ring.
    + rewrite xpower_pos by lra. rewrite xsub_fin, xmul_fin. cbn [xadd].
      replace (Rpower 1 (1 + beta)) with 1 by (unfold Rpower; now rewrite ln_1, Rmult_0_r, exp_0).
      replace (1 + u2 * (1 - 1)) with 1 by ring. rewrite xpower_pos by lra. f_equal.
      unfold Rpower. now rewrite ln_1, Rmult_0_r, exp_0.
  - assert (Hl : 0 < mmin / m1 < 1).
    { split; [apply Rdiv_lt_0_compat; lra|apply Rlt_div_l; lra]. }
    destruct (cdf_icdf u2 beta (mmin / m1) 1 Hl ltac:(lra)) as (q & -> & R2 & _).
    exists m1, q. split; [reflexivity|lra].
Qed.

(** ** Wysocki2019MassModel *)
Theorem wysocki_normalised alpha mmin mmax : 0 < mmin < mmax ->
  integrates_to_2d (wysocki_log_prob alpha mmin mmax) mmin mmax (fun _ => mmin) (fun m1 => m1) 1.
Proof.
  intros H. exists (fun m1 => wexp (powerlaw_log_prob m1 (- alpha) mmin mmax)). split.
  - intros m1 Hm.
    apply is_RInt_ext with (fun _ => wexp (powerlaw_log_prob m1 (- alpha) mmin mmax) / (m1 - mmin)).
    { rewrite Rmin_left, Rmax_right by lra. intros m2 Hm2. unfold wysocki_log_prob, uniform_logpdf.
      destruct (Rlt_dec (mmin + (m1 - mmin)) m2); [lra|]. destruct (Rlt_dec m2 mmin); [lra|].
      rewrite log_prob_fin by lra. rewrite wexp_add. rewrite xln_fin by lra. cbn [xopp wexp].
      rewrite exp_Ropp, exp_ln by lra. reflexivity. }
    apply is_RInt_const_R. field. lra.
  - apply (powerlaw_normalised (- alpha) mmin mmax H).
Qed.

Theorem wysocki_outside alpha mmin mmax m1 m2 : 0 < mmin < mmax -> mmin < m1 -> m2 < mmin \/ m1 < m2 ->
  wysocki_log_prob alpha mmin mmax m1 m2 = NInf.
Proof.
  intros H H1 H2. unfold wysocki_log_prob, uniform_logpdf. rewrite log_prob_fin by lra.
  destruct (Rlt_dec (mmin + (m1 - mmin)) m2); [reflexivity|]. destruct (Rlt_dec m2 mmin); [reflexivity|lra].
Qed.

Theorem wysocki_sample_in_support alpha mmin mmax u1 u2 : 0 < mmin < mmax -> 0 <= u1 < 1 -> 0 <= u2 < 1 ->
  exists m1 m2, wysocki_sample alpha mmin mmax u1 u2 = (Fin m1, Fin m2) /\ mmin <= m2 <= m1 /\ m1 <= mmax.
Proof.
  intros H H1 H2. unfold wysocki_sample.
  destruct (cdf_icdf u1 (- alpha) mmin mmax H ltac:(lra)) as (m1 & -> & R1 & _).
  rewrite xsub_fin, xmul_fin. cbn [xadd]. do 2 eexists. split; [reflexivity|].
  assert (0 <= m1 - mmin) by lra. nra.
Qed.

(** ** C36 *)
Section Broken.
Variables a1 a2 mmin mmax mb : R.
Hypothesis H : 0 < mmin < mb.
Hypothesis H' : mb < mmax.

Lemma neg_lp_break alpha l h : 0 < l < h ->
  wexp (xopp (powerlaw_log_prob mb (- alpha) l h))
  = (antider (- alpha) h - antider (- alpha) l) * Rpower mb alpha.
Proof.
  intros Hl. rewrite log_prob_fin by lra. cbn [xopp wexp].
  pose proof (antider_incr (- alpha) l h Hl).
  replace (- (- alpha * ln mb - ln (antider (- alpha) h - antider (- alpha) l)))
    with (ln (antider (- alpha) h - antider (- alpha) l) + alpha * ln mb) by ring.
  rewrite exp_plus, exp_ln by lra. reflexivity.
Qed.

Definition broken_Z : R :=
  (antider (- a1) mb - antider (- a1) mmin) * Rpower mb a1
  + (antider (- a2) mmax - antider (- a2) mb) * Rpower mb a2.

Lemma broken_Z_pos : 0 < broken_Z.
Proof.
  unfold broken_Z. pose proof (antider_incr (- a1) mmin mb H). pose proof (antider_incr (- a2) mb mmax ltac:(lra)).
  pose proof (Rpower_pos mb a1). pose proof (Rpower_pos mb a2).
  apply Rplus_lt_0_compat; apply Rmult_lt_0_compat; lra.
Qed.

Lemma broken_fin m : 0 < m ->
  broken_powerlaw_log_prob m a1 a2 mmin mmax mb
  = Fin ((if Rlt_dec m mb then a1 else a2) * ln (mb / m) - ln broken_Z).
Proof.
  intros Hm. unfold broken_powerlaw_log_prob.
  replace (logaddexp (xopp (powerlaw_log_prob mb (- a1) mmin mb)) (xopp (powerlaw_log_prob mb (- a2) mb mmax)))
    with (Fin (ln broken_Z)).
  - rewrite xdiv_fin' by lra. rewrite xln_fin by (apply Rdiv_lt_0_compat; lra).
    rewrite xmul_fin, xsub_fin. reflexivity.
  - unfold logaddexp. rewrite !xexp_wexp.
    + cbn [xadd]. rewrite !neg_lp_break by lra. fold broken_Z. rewrite xln_fin; [reflexivity|].
      apply broken_Z_pos.
    + rewrite log_prob_fin by lra. exact I.
    + rewrite log_prob_fin by lra. exact I.
Qed.

Lemma broken_density m : 0 < m ->
  wexp (broken_powerlaw_log_prob m a1 a2 mmin mmax mb)
  = Rpower (mb / m) (if Rlt_dec m mb then a1 else a2) / broken_Z.
Proof.
  intros Hm. rewrite broken_fin by auto. cbn [wexp]. unfold Rminus.
  rewrite exp_plus, exp_Ropp, exp_ln by apply broken_Z_pos. reflexivity.
Qed.

Lemma Rpower_ratio m a : 0 < m -> Rpower (mb / m) a = Rpower mb a * Rpower m (- a).
Proof.
  intros Hm. unfold Rpower. rewrite ln_div by lra. rewrite <- exp_plus. f_equal. ring.
Qed.

Lemma piece a x y : 0 < x -> x <= y ->
  is_RInt (fun m => Rpower (mb / m) a / broken_Z) x y
    ((antider (- a) y - antider (- a) x) * Rpower mb a / broken_Z).
Proof.
  intros Hx Hxy. pose proof broken_Z_pos as P.
  apply is_RInt_ext with (fun m => scal (Rpower mb a / broken_Z) (Rpower m (- a))).
  { rewrite Rmin_left, Rmax_right by lra. intros m Hm. rewrite Rpower_ratio by lra.
    unfold scal; simpl; unfold mult; simpl. unfold Rdiv. ring. }
  replace ((antider (- a) y - antider (- a) x) * Rpower mb a / broken_Z)
    with (scal (Rpower mb a / broken_Z) (minus (antider (- a) y) (antider (- a) x)))
    by (unfold scal, minus, plus, opp; simpl; unfold mult; simpl; unfold Rdiv; ring).
  apply @is_RInt_scal. apply (is_RInt_derive (antider (- a)) (fun m => Rpower m (- a))).
  - rewrite Rmin_left, Rmax_right by lra. intros m Hm. apply antider_derive; lra.
  - rewrite Rmin_left, Rmax_right by lra. intros m Hm.
    apply @ex_derive_continuous. eexists. apply is_derive_Rpower; lra.
Qed.

Theorem broken_normalised :
  integrates_to (fun m => broken_powerlaw_log_prob m a1 a2 mmin mmax mb) mmin mmax 1.
Proof.
  unfold integrates_to. pose proof broken_Z_pos as P.
  replace 1 with (plus ((antider (- a1) mb - antider (- a1) mmin) * Rpower mb a1 / broken_Z)
                       ((antider (- a2) mmax - antider (- a2) mb) * Rpower mb a2 / broken_Z)).
  2:{ unfold plus; simpl. rewrite <- Rdiv_plus_distr. fold broken_Z. field. lra. }
  apply @is_RInt_Chasles with mb.
  - apply is_RInt_ext with (fun m => Rpower (mb / m) a1 / broken_Z); [|apply piece; lra].
    rewrite Rmin_left, Rmax_right by lra. intros m Hm. rewrite broken_density by lra.
    destruct (Rlt_dec m mb); [auto|lra].
  - apply is_RInt_ext with (fun m => Rpower (mb / m) a2 / broken_Z); [|apply piece; lra].
    rewrite Rmin_left, Rmax_right by lra. intros m Hm. rewrite broken_density by lra.
    destruct (Rlt_dec m mb); [lra|auto].
Qed.

Lemma Rpower_ratio_continuous a m : 0 < m -> continuous (fun m => Rpower (mb / m) a / broken_Z) m.
Proof.
  intros Hm. apply @ex_derive_continuous. unfold Rpower. auto_derive.
  repeat split; try lra. apply Rdiv_lt_0_compat; lra.
Qed.

Theorem broken_continuous m : 0 < m ->
  continuous (fun m => wexp (broken_powerlaw_log_prob m a1 a2 mmin mmax mb)) m.
Proof.
  intros Hm. pose proof broken_Z_pos as P.
  apply continuous_ext_loc with
    (fun m => if Rlt_dec m mb then Rpower (mb / m) a1 / broken_Z else Rpower (mb / m) a2 / broken_Z).
  { generalize (locally_gt 0 m Hm). apply filter_imp. intros y Hy. rewrite broken_density by auto.
    destruct (Rlt_dec y mb); reflexivity. }
  destruct (Rtotal_order m mb) as [L|[E|L]].
  - apply continuous_ext_loc with (fun m => Rpower (mb / m) a1 / broken_Z); [|now apply Rpower_ratio_continuous].
    generalize (locally_lt mb m L). apply filter_imp. intros y Hy. destruct (Rlt_dec y mb); [auto|lra].
  - subst m. assert (V : forall a, Rpower (mb / mb) a / broken_Z = / broken_Z).
    { intros a. replace (mb / mb) with 1 by (field; lra). unfold Rpower. rewrite ln_1, Rmult_0_r, exp_0. field. lra. }
    intros Q HQ. destruct (Rlt_dec mb mb); [lra|]. rewrite V in HQ.
    assert (C : forall a, locally mb (fun m => Q (Rpower (mb / m) a / broken_Z))).
    { intros a. apply (Rpower_ratio_continuous a mb Hm Q). rewrite V. exact HQ. }
    pose proof (C a1) as C1. pose proof (C a2) as C2. unfold filtermap.
    generalize (filter_and _ _ C1 C2). apply filter_imp. intros y [A B].
    destruct (Rlt_dec y mb); auto.
  - apply continuous_ext_loc with (fun m => Rpower (mb / m) a2 / broken_Z); [|now apply Rpower_ratio_continuous].
    generalize (locally_gt mb m L). apply filter_imp. intros y Hy. destruct (Rlt_dec y mb); [lra|auto].
Qed.
End Broken.

(** ** C37 *)
Definition window (x : R) : R := wexp (log_planck_taper_window x).

Lemma softplus_fin x : softplus x = Fin (ln (exp x + 1)).
Proof.
  unfold softplus, logaddexp. cbn [xexp xadd]. rewrite exp_0. pose proof (exp_pos x).
  rewrite xln_fin by lra. reflexivity.
Qed.

Lemma window_inside x : 0 < x < 1 -> window x = / (1 + exp (/ x + / (x - 1))).
Proof.
  intros Hx. unfold window, log_planck_taper_window.
  destruct (Rle_dec x 0); [lra|]. destruct (Rlt_dec x 1); [|lra].
  destruct (Req_EM_T x 0); [lra|]. destruct (Req_EM_T x 1); [lra|].
  rewrite softplus_fin. cbn [xopp wexp]. pose proof (exp_pos (/ x + / (x - 1))).
  rewrite exp_Ropp, exp_ln by lra. f_equal. ring.
Qed.
Lemma window_low x : x <= 0 -> log_planck_taper_window x = NInf.
Proof. intros. unfold log_planck_taper_window. destruct (Rle_dec x 0); [auto|lra]. Qed.
Lemma window_high x : 1 <= x -> log_planck_taper_window x = Fin 0.
Proof. intros. unfold log_planck_taper_window. destruct (Rle_dec x 0); [lra|]. destruct (Rlt_dec x 1); [lra|auto]. Qed.

Lemma taper_exponent_decr x y : 0 < x -> x < y -> y < 1 -> / y + / (y - 1) < / x + / (x - 1).
Proof.
  intros Hx Hxy Hy. assert (/ y < / x) by (apply Rinv_lt_contravar; [apply Rmult_lt_0_compat|]; lra).
  assert (/ (1 - x) < / (1 - y)) by (apply Rinv_lt_contravar; [apply Rmult_lt_0_compat|]; lra).
  replace (/ (y - 1)) with (- / (1 - y)) by (field; lra). replace (/ (x - 1)) with (- / (1 - x)) by (field; lra). lra.
Qed.

Theorem window_increasing x y : 0 < x -> x < y -> y < 1 -> window x < window y.
Proof.
  intros Hx Hxy Hy. rewrite !window_inside by lra.
  pose proof (taper_exponent_decr x y Hx Hxy Hy) as L. apply exp_increasing in L.
  pose proof (exp_pos (/ y + / (y - 1))).
  apply Rinv_lt_contravar; [apply Rmult_lt_0_compat|]; lra.
Qed.
Theorem window_range x : 0 < x < 1 -> 0 < window x < 1.
Proof.
  intros Hx. rewrite window_inside by auto. pose proof (exp_pos (/ x + / (x - 1))).
  split; [apply Rinv_0_lt_compat; lra|].
  apply Rlt_le_trans with (/ 1); [apply Rinv_lt_contravar; lra|lra].
Qed.
Theorem window_complement x : window x + window (1 - x) = 1.
Proof.
  destruct (Rle_dec x 0).
  - unfold window. rewrite window_low, window_high by lra. simpl. rewrite exp_0. ring.
  - destruct (Rle_dec 1 x).
    + unfold window. rewrite window_high, window_low by lra. simpl. rewrite exp_0. ring.
    + rewrite !window_inside by lra.
      replace (/ (1 - x) + / (1 - x - 1)) with (- (/ x + / (x - 1))) by (field; lra).
      rewrite exp_Ropp. pose proof (exp_pos (/ x + / (x - 1))). field. lra.
Qed.

(** close to 0 the window is below x: exp y >= 1 + y *)
Lemma window_small x : 0 < x <= 1/4 -> window x <= 2 * x.
Proof.
  intros Hx. rewrite window_inside by lra.
  pose proof (exp_ge_1p (/ x + / (x - 1))) as B.
  assert (- (4/3) <= / (x - 1)).
  { replace (/ (x - 1)) with (- / (1 - x)) by (field; lra). apply Ropp_le_contravar.
    replace (4/3) with (/ (3/4)) by field. apply Rinv_le_contravar; lra. }
  assert (4 <= / x) by (replace 4 with (/ (1/4)) by field; apply Rinv_le_contravar; lra).
  apply Rle_trans with (/ (/ x / 2)).
  - apply Rinv_le_contravar; lra.
  - right. field. lra.
Qed.

Lemma window_continuous_0 : continuous window 0.
Proof.
  intros Q HQ. unfold filtermap.
  assert (E : window 0 = 0) by (unfold window; rewrite window_low by lra; auto).
  rewrite E in HQ. destruct HQ as [eps He].
  assert (Hd : 0 < Rmin (1/4) (eps / 4)) by (apply Rmin_pos; [lra|pose proof (cond_pos eps); lra]).
  exists (mkposreal _ Hd). intros y Hy. apply He.
  change (Rabs (window y - 0) < eps). assert (Hy' : Rabs (y - 0) < Rmin (1/4) (eps / 4)) by exact Hy.
  rewrite Rminus_0_r in *. apply Rabs_def2 in Hy'. pose proof (Rmin_l (1/4) (eps / 4)). pose proof (Rmin_r (1/4) (eps / 4)).
  destruct (Rle_dec y 0).
  - unfold window. rewrite window_low by auto. simpl. rewrite Rabs_R0. apply cond_pos.
  - pose proof (window_small y ltac:(lra)). pose proof (window_range y ltac:(lra)).
    rewrite Rabs_right by lra. lra.
Qed.

Theorem window_continuous (x : R) : continuous window x.
Proof.
  assert (C0 := window_continuous_0).
  destruct (Rtotal_order x 0) as [L|[E|L]]; [|subst; auto|].
  - apply continuous_ext_loc with (fun _ => 0); [|apply continuous_const].
    generalize (locally_lt 0 x L). apply filter_imp. intros y Hy. unfold window. now rewrite window_low by lra.
  - destruct (Rtotal_order x 1) as [L1|[E1|L1]].
    + apply continuous_ext_loc with (fun x => / (1 + exp (/ x + / (x - 1)))).
      * generalize (locally_between 0 1 x ltac:(lra)). apply filter_imp. intros y Hy. now rewrite window_inside.
      * apply @ex_derive_continuous. auto_derive. pose proof (exp_pos (/ x + / (x - 1))).
        pose proof (exp_pos (/ x + / (x + - (1)))). repeat split; lra.
    + subst. apply continuous_ext with (fun x => 1 - window (1 - x)).
      { intros y. pose proof (window_complement y). lra. }
      apply @continuous_minus; [apply continuous_const|].
      apply (continuous_comp (fun x => 1 - x) window).
      * apply @ex_derive_continuous. auto_derive. auto.
      * replace (1 - 1) with 0 by ring. exact C0.
    + apply continuous_ext_loc with (fun _ => 1); [|apply continuous_const].
      generalize (locally_gt 1 x L1). apply filter_imp. intros y Hy. unfold window. rewrite window_high by lra.
      simpl. now rewrite exp_0.
Qed.

(** ** C38 *)
Lemma log_ndtr_fin x : log_ndtr x = Fin (ln (ndtr x)).
Proof. unfold log_ndtr. apply xln_fin. apply ndtr_bounds. Qed.

Lemma logsubexp_fin a b : b < a -> logsubexp (Fin a) (Fin b) = Fin (ln (exp a - exp b)).
Proof.
  intros H. unfold logsubexp, xlog1p. rewrite xsub_fin. cbn [xexp xopp xadd].
  assert (exp (b - a) < 1) by (rewrite <- exp_0; apply exp_increasing; lra).
  rewrite xln_fin by lra. cbn [xadd]. f_equal. rewrite <- (ln_exp a) at 1.
  rewrite <- ln_mult; [|apply exp_pos|lra]. f_equal.
  unfold Rminus. rewrite exp_plus, exp_Ropp. field. pose proof (exp_pos a). lra.
Qed.

Lemma logsubexp_ndtr a b : a < b -> logsubexp (log_ndtr b) (log_ndtr a) = Fin (ln (ndtr b - ndtr a)).
Proof.
  intros H. pose proof (ndtr_bounds a). pose proof (ndtr_bounds b). pose proof (ndtr_incr a b H).
  rewrite !log_ndtr_fin. rewrite logsubexp_fin by (apply ln_increasing; lra).
  rewrite !exp_ln by lra. reflexivity.
Qed.

Theorem norm_branches aa bb : aa < bb ->
  truncnorm_norm_left aa bb = Fin (ln (ndtr bb - ndtr aa))
  /\ truncnorm_norm_right aa bb = Fin (ln (ndtr bb - ndtr aa))
  /\ truncnorm_norm_central aa bb = Fin (ln (ndtr bb - ndtr aa)).
Proof.
  intros H. pose proof (ndtr_incr aa bb H). repeat split.
  - now apply logsubexp_ndtr.
  - unfold truncnorm_norm_right. rewrite logsubexp_ndtr by lra. rewrite !ndtr_opp. do 2 f_equal. ring.
  - unfold truncnorm_norm_central, xlog1p. cbn [xadd]. rewrite ndtr_opp.
    replace (1 + (- ndtr aa - (1 - ndtr bb))) with (ndtr bb - ndtr aa) by ring. apply xln_fin. lra.
Qed.

Lemma truncnorm_log_norm_fin aa bb : aa < bb -> truncnorm_log_norm aa bb = Fin (ln (ndtr bb - ndtr aa)).
Proof.
  intros H. destruct (norm_branches aa bb H) as (A & B & C). unfold truncnorm_log_norm.
  destruct (Rle_dec bb 0); auto. destruct (Rlt_dec 0 aa); auto. destruct (Rlt_dec 0 bb); auto. lra.
Qed.

Lemma std_order loc scale low high : 0 < scale -> low < high -> (low - loc) / scale < (high - loc) / scale.
Proof. intros. unfold Rdiv. apply Rmult_lt_compat_r; [apply Rinv_0_lt_compat|]; lra. Qed.

Lemma truncnorm_fin x loc scale low high : 0 < scale -> low < high -> low <= x <= high ->
  truncnorm_logpdf x loc scale low high
  = Fin (- (1/2) * ((x - loc) / scale * ((x - loc) / scale) + ln (2 * PI)) - ln scale
         - ln (ndtr ((high - loc) / scale) - ndtr ((low - loc) / scale))).
Proof.
  intros Hs Hl Hx. unfold truncnorm_logpdf.
  destruct (Rlt_dec x low); [lra|]. destruct (Rlt_dec high x); [lra|]. destruct (Rle_dec scale 0); [lra|].
  rewrite truncnorm_log_norm_fin by now apply std_order. rewrite xln_fin by lra. rewrite !xsub_fin. reflexivity.
Qed.

Lemma phi_exp z : exp (- (1/2) * (z * z + ln (2 * PI))) = phi z.
Proof.
  unfold phi. rewrite Rmult_plus_distr_l, exp_plus.
  assert (P : 0 < 2 * PI) by (pose proof PI_RGT_0; lra).
  assert (S : exp (1/2 * ln (2 * PI)) = sqrt (2 * PI)).
  { change (Rpower (2 * PI) (1/2) = sqrt (2 * PI)). replace (1/2) with (/2) by field. now apply Rpower_sqrt. }
  replace (exp (- (1/2) * ln (2 * PI))) with (/ sqrt (2 * PI)).
  - replace (- (1 / 2) * (z * z)) with (- (z * z / 2)) by field. reflexivity.
  - rewrite <- S, <- exp_Ropp. f_equal. ring.
Qed.

Theorem truncnorm_density x loc scale low high : 0 < scale -> low < high -> low <= x <= high ->
  wexp (truncnorm_logpdf x loc scale low high)
  = norm_pdf x loc scale / (ndtr ((high - loc) / scale) - ndtr ((low - loc) / scale)).
Proof.
  intros Hs Hl Hx. rewrite truncnorm_fin by auto. cbn [wexp].
  pose proof (ndtr_incr _ _ (std_order loc scale low high Hs Hl)) as HI.
  unfold Rminus at 1. rewrite exp_plus, exp_Ropp, exp_ln by lra.
  unfold Rminus at 1. rewrite exp_plus, exp_Ropp, exp_ln by lra.
  rewrite phi_exp. reflexivity.
Qed.

Theorem truncnorm_outside x loc scale low high : x < low \/ high < x ->
  truncnorm_logpdf x loc scale low high = NInf.
Proof.
  intros H. unfold truncnorm_logpdf. destruct (Rlt_dec x low); auto. destruct (Rlt_dec high x); auto. lra.
Qed.

Theorem truncnorm_normalised loc scale low high : 0 < scale -> low < high ->
  integrates_to (fun x => truncnorm_logpdf x loc scale low high) low high 1.
Proof.
  intros Hs Hl. unfold integrates_to.
  set (Z := ndtr ((high - loc) / scale) - ndtr ((low - loc) / scale)).
  assert (HZ : 0 < Z) by (pose proof (ndtr_incr _ _ (std_order loc scale low high Hs Hl)); unfold Z; lra).
  apply is_RInt_ext with (fun x => scal (/ Z) (norm_pdf x loc scale)).
  { rewrite Rmin_left, Rmax_right by lra. intros x Hx. rewrite truncnorm_density by lra.
    fold Z. unfold scal; simpl; unfold mult; simpl. unfold Rdiv. ring. }
  replace 1 with (scal (/ Z) Z) by (unfold scal; simpl; unfold mult; simpl; field; lra).
  apply @is_RInt_scal. now apply norm_pdf_RInt.
Qed.
