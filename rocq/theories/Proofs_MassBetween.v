(** The smoothed mass models between the nodes of their tables. *)
From Coq Require Import Bool Reals List Lia Lra.
From Coquelicot Require Import Coquelicot.
From Verif Require Import Model_X Spec_X Proofs_X Model_Cosmology Model_Constraints Model_Mass Spec_Density Proofs_Powerlaw Proofs_Transform Proofs_Mass
  Proofs_Cosmology Proofs_MassGrid Spec_SmoothedDensity Proofs_SmoothedDensity Spec_MassBetween.
Import ListNotations.
Open Scope R_scope.

Lemma planck_taper x : wexp (log_planck_taper_window x) = planck x.
Proof.
  unfold planck. destruct (Rle_dec x 0); [now rewrite window_low|]. destruct (Rlt_dec x 1).
  - change (window x = / (1 + exp (1 / x + 1 / (x - 1)))). rewrite window_inside by lra. now rewrite !Rdiv_1_l || (unfold Rdiv; rewrite !Rmult_1_l).
  - rewrite window_high by lra. apply exp_0.
Qed.
Lemma planck_mono x y : x <= y -> planck x <= planck y.
Proof.
  intros H. destruct H as [H| ->]; [|lra]. rewrite <- !planck_taper. change (window x <= window y).
  assert (N : forall z, 0 <= window z) by (intros; apply wexp_nonneg).
  destruct (Rle_dec x 0). { assert (E : window x = 0) by (unfold window; now rewrite window_low). rewrite E. apply N. }
  assert (one : forall z, 1 <= z -> window z = 1) by (intros z Hz; unfold window; rewrite window_high by auto; apply exp_0).
  destruct (Rle_dec 1 x). { rewrite !one by lra. lra. }
  pose proof (window_range x ltac:(lra)).
  destruct (Rle_dec 1 y). { rewrite (one y) by auto. lra. }
  left. apply window_increasing; lra.
Qed.
Lemma trapezoid_mono : forall xs (f g : R -> R), inc1 xs -> (forall x, In x xs -> f x <= g x) ->
  trapezoid xs (map f xs) <= trapezoid xs (map g xs).
Proof.
  intros xs f g Hi H.
  assert (P : 0 <= trapezoid xs (map (fun x => g x + -1 * f x) xs)).
  { apply trapezoid_nonneg; auto. intros x Hx. specialize (H x Hx). lra. }
  rewrite (trapezoid_plus xs g (fun x => -1 * f x)), trapezoid_scale in P. lra.
Qed.

Lemma ratio_sum_mono beta delta mmin a b : 0 < delta -> a <= b -> ratio_sum beta delta mmin a <= ratio_sum beta delta mmin b.
Proof.
  intros Hd Hab. unfold ratio_sum. rewrite !trapezoid_sum_eq, q_nodes. destruct q_grid_facts as (A & _ & _ & D).
  apply trapezoid_mono; auto. intros q Hq. specialize (D q Hq).
  apply Rmult_le_compat_l; [left; apply Rpower_pos|]. apply planck_mono.
  apply Rmult_le_compat_r; [left; now apply Rinv_0_lt_compat|]. nra.
Qed.

(** interpolating an increasing table stays between the neighbours *)
Lemma lerp_between fa fb a b x : a < b -> a <= x <= b -> fa <= fb -> fa <= fa + (x - a) / (b - a) * (fb - fa) <= fb.
Proof.
  intros Hab Hx Hf. assert (T : 0 <= (x - a) / (b - a) <= 1).
  { split; [apply Rmult_le_pos; [lra|left; apply Rinv_0_lt_compat; lra]|apply Rle_div_l; lra]. }
  nra.
Qed.
Lemma ratio_between p z zi za zb : 0 <= p -> 0 < za -> za <= z <= zb -> za <= zi <= zb ->
  p * (za / zb) <= p / zi * z <= p * (zb / za).
Proof.
  intros Hp Ha Hz Hi.
  replace (p / zi * z) with (p * (z / zi)) by (field; lra).
  assert (za / zb <= z / zi).
  { apply Rle_trans with (z / zb).
    - apply Rmult_le_compat_r; [left; apply Rinv_0_lt_compat; lra|lra].
    - apply Rmult_le_compat_l; [lra|apply Rinv_le_contravar; lra]. }
  assert (z / zi <= zb / za).
  { apply Rle_trans with (zb / zi).
    - apply Rmult_le_compat_r; [left; apply Rinv_0_lt_compat; lra|lra].
    - apply Rmult_le_compat_l; [lra|apply Rinv_le_contravar; lra]. }
  split; apply Rmult_le_compat_l; auto.
Qed.

Lemma outside_taper mmin mmax delta m1 q : 0 < delta -> 0 < mmin -> 0 < m1 <= mmax -> 0 < q <= 1 ->
  mass_ratio_mass_sandwich (Fin mmin) (Fin mmax) (Fin m1) (Fin q) = false -> planck ((m1 * q - mmin) / delta) = 0.
Proof.
  intros Hd Hm H1 Hq E. destruct (Rle_dec mmin (m1 * q)) as [h|h].
  - exfalso. rewrite (proj2 (pmr_sandwich mmin mmax m1 q ltac:(lra) ltac:(lra))) in E; [discriminate|].
    repeat split; try lra. apply Rle_div_l; lra.
  - rewrite <- planck_taper. apply taper_neg. apply scaled_nonpos; lra.
Qed.

Section Stc.
Variables alpha beta delta lambda loc mmax mmin scale : R.
Variable validate : bool.
Hypothesis Hm : 0 < mmin < mmax.
Hypothesis Hd : 0 < delta.
Hypothesis Hl : 0 <= lambda <= 1.
Hypothesis Hs : 0 < scale.
Notation m1u := (stc_m1_unnorm alpha delta lambda loc mmax mmin scale).
Notation qu := (stc_q_unnorm beta delta mmax mmin validate).
Notation Zq := (stc_Zq beta delta mmax mmin validate).

Lemma stc_qu_value m1 q : 0 < m1 <= mmax -> 0 < q <= 1 ->
  wexp (qu m1 q) = Rpower q beta * planck ((m1 * q - mmin) / delta).
Proof.
  intros H1 Hq. unfold stc_q_unnorm. destruct (Rle_dec delta 0); [lra|]. rewrite xln_fin, xmul_fin by lra.
  destruct (mass_ratio_mass_sandwich (Fin mmin) (Fin mmax) (Fin m1) (Fin q)) eqn:E.
  - replace (validated validate true) with (fun x : X => x) by (destruct validate; reflexivity).
    rewrite wexp_add, planck_taper. reflexivity.
  - pose proof (outside_taper mmin mmax delta m1 q Hd ltac:(lra) H1 Hq E) as Z.
    destruct validate; cbn [validated]; [cbn [wexp]; rewrite Z; ring|]. rewrite wexp_add, planck_taper. reflexivity.
Qed.
Lemma stc_Zq_value m1 : 0 < m1 <= mmax -> Zq m1 = ratio_sum beta delta mmin m1.
Proof.
  intros H1. unfold ratio_sum. rewrite trapezoid_sum_eq, q_nodes. unfold stc_Zq. change wval with wexp.
  apply trapezoid_ext. intros q Hq. destruct q_grid_facts as (_ & _ & _ & D). apply stc_qu_value; auto.
Qed.
Lemma stc_sum m1 Zi : mmin + delta < mmax -> 0 < m1 <= mmax -> 0 < Zi ->
  interp_lr m1 (stc_m1s mmax mmin) (map Zq (stc_m1s mmax mmin)) 1 1 = Zi ->
  trapezoid q_grid (map (fun q => wexp (stc_log_prob alpha beta delta lambda loc mmax mmin scale validate m1 q)) q_grid)
  = wexp (xsub (m1u m1) (stc_logZ alpha delta lambda loc mmax mmin scale)) / Zi * Zq m1.
Proof.
  intros Hmd Hr HZ Hi.
  destruct (stc_rest_integral alpha delta lambda loc mmax mmin scale Hm Hd Hl Hs Hmd) as (A & _ & PA & EA).
  set (N := stc_numerical alpha delta lambda loc mmax mmin scale).
  assert (HN : 0 <= N).
  { unfold N, stc_numerical. apply (trapezoid_nonneg (stc_edge_grid delta mmin) (fun m => wexp (m1u m))).
    - apply linspace_inc; [lra|lia].
    - intros; apply wexp_nonneg. }
  assert (EZ : stc_logZ alpha delta lambda loc mmax mmin scale = xln (Fin (N + A))).
  { unfold stc_logZ. fold N. rewrite EA. reflexivity. }
  rewrite (trapezoid_ext _ _ (fun q => wexp (m1u m1) / (N + A) / Zi * wexp (qu m1 q))).
  - rewrite trapezoid_scale. change (trapezoid q_grid (map (fun q => wexp (qu m1 q)) q_grid)) with (Zq m1).
    rewrite EZ, wexp_xsub_ln by lra. reflexivity.
  - intros q Hq. destruct q_grid_facts as (_ & _ & _ & D). specialize (D q Hq).
    assert (Fq : fin_or_ninf (qu m1 q)) by (apply stc_q_fin; lra).
    unfold stc_log_prob. rewrite Hi, EZ. destruct (Rle_dec Zi 0); [lra|].
    destruct (mass_ratio_mass_sandwich (Fin mmin) (Fin mmax) (Fin m1) (Fin q)) eqn:EM.
    + replace (validated validate true) with (fun x : X => x) by (destruct validate; reflexivity).
      rewrite wexp_combine; [|apply stc_m1_fin; lra|exact Fq|lra|auto]. field. lra.
    + destruct validate eqn:EV.
      * unfold validated at 1. cbn [wexp]. unfold stc_q_unnorm. rewrite EM. unfold validated. cbn [wexp]. ring.
      * unfold validated at 1.
        rewrite wexp_combine; [|apply stc_m1_fin; lra|exact Fq|lra|auto]. field. lra.
Qed.
Theorem stc_between m1 l a b r : mmin + delta < mmax -> stc_m1s mmax mmin = l ++ a :: b :: r -> mmin < a -> a <= m1 <= b ->
  let p := wexp (xsub (m1u m1) (stc_logZ alpha delta lambda loc mmax mmin scale)) in
  p * (ratio_sum beta delta mmin a / ratio_sum beta delta mmin b)
  <= trapezoid q_grid (map (fun q => wexp (stc_log_prob alpha beta delta lambda loc mmax mmin scale validate m1 q)) q_grid)
  <= p * (ratio_sum beta delta mmin b / ratio_sum beta delta mmin a).
Proof.
  intros Hmd El Ha Hab p.
  assert (Hi : inc1 (stc_m1s mmax mmin)) by (apply linspace_inc; [lra|lia]).
  assert (R0 : forall m, In m (stc_m1s mmax mmin) -> mmin <= m <= mmax) by (intros m Hin; apply (linspace_range mmin mmax 1000); auto; [lra|lia]).
  assert (Ib : mmin <= b <= mmax) by (apply R0; rewrite El; apply in_or_app; right; right; now left).
  assert (Lab : a < b) by (rewrite El in Hi; exact (inc1_app_pair _ _ _ _ Hi)).
  pose proof (stc_Zq_pos beta delta mmax mmin validate Hm Hd a ltac:(lra) ltac:(lra)) as Pa.
  rewrite stc_Zq_value in Pa by lra.
  pose proof (ratio_sum_mono beta delta mmin a m1 Hd ltac:(lra)) as M1.
  pose proof (ratio_sum_mono beta delta mmin m1 b Hd ltac:(lra)) as M2.
  set (Zi := interp_lr m1 (stc_m1s mmax mmin) (map Zq (stc_m1s mmax mmin)) 1 1).
  assert (EZi : ratio_sum beta delta mmin a <= Zi <= ratio_sum beta delta mmin b).
  { unfold Zi. rewrite El. rewrite interp_lr_between; [|rewrite <- El; exact Hi|exact Hab].
    rewrite !stc_Zq_value by lra. apply lerp_between; lra. }
  rewrite (stc_sum m1 Zi Hmd ltac:(lra) ltac:(lra) eq_refl). fold p. rewrite stc_Zq_value by lra.
  apply ratio_between; try lra. apply wexp_nonneg.
Qed.
End Stc.

Section B2p.
Variables a1 a2 beta loc1 loc2 scale1 scale2 d1 d2 l0 l1 m1min m2min mmax mb : R.
Variable validate : bool.
Hypothesis H1 : 0 < m1min < mb.
Hypothesis H2 : mb < mmax.
Hypothesis H3 : 0 < m2min < mmax.
Hypothesis Hd1 : 0 < d1.
Hypothesis Hd2 : 0 < d2.
Hypothesis Hl0 : 0 <= l0.
Hypothesis Hl1 : 0 <= l1.
Hypothesis Hl : l0 + l1 <= 1.
Hypothesis Hs1 : 0 < scale1.
Hypothesis Hs2 : 0 < scale2.
Notation m1u := (b2p_m1_unnorm a1 a2 loc1 loc2 scale1 scale2 d1 l0 l1 m1min mmax mb).
Notation qu := (b2p_q_unnorm beta d2 m2min mmax validate).
Notation Zq := (b2p_Zq beta d2 m2min mmax validate).
Notation lp := (b2p_log_prob a1 a2 beta loc1 loc2 scale1 scale2 d1 d2 l0 l1 m1min m2min mmax mb validate).
Notation logZ := (b2p_logZ a1 a2 loc1 loc2 scale1 scale2 d1 l0 l1 m1min mmax mb).

Lemma b2p_qu_value m1 q : 0 < m1 <= mmax -> 0 < q <= 1 ->
  wexp (qu m1 q) = Rpower q beta * planck ((m1 * q - m2min) / d2).
Proof.
  intros Hm1 Hq. unfold b2p_q_unnorm. destruct (Rle_dec d2 0); [lra|].
  assert (V : wexp (if Rlt_dec (m1 * q) m2min then NInf
      else xadd (xmul (Fin beta) (xln (Fin q))) (log_planck_taper_window ((m1 * q - m2min) / d2)))
    = Rpower q beta * planck ((m1 * q - m2min) / d2)).
  { destruct (Rlt_dec (m1 * q) m2min).
    - rewrite <- planck_taper, taper_neg by (apply scaled_nonpos; lra). cbn [wexp]. ring.
    - rewrite xln_fin, xmul_fin by lra. rewrite wexp_add, planck_taper. reflexivity. }
  destruct (mass_ratio_mass_sandwich (Fin m2min) (Fin mmax) (Fin m1) (Fin q)) eqn:E.
  - replace (validated validate true) with (fun x : X => x) by (destruct validate; reflexivity). exact V.
  - pose proof (outside_taper m2min mmax d2 m1 q Hd2 ltac:(lra) Hm1 Hq E) as Z.
    destruct validate; cbn [validated]; [cbn [wexp]; rewrite Z; ring|exact V].
Qed.
Lemma b2p_Zq_value m1 : 0 < m1 <= mmax -> Zq m1 = ratio_sum beta d2 m2min m1.
Proof.
  intros Hm1. unfold ratio_sum. rewrite trapezoid_sum_eq, q_nodes. unfold b2p_Zq. change wval with wexp.
  apply trapezoid_ext. intros q Hq. destruct q_grid_facts as (_ & _ & _ & D). apply b2p_qu_value; auto.
Qed.
Lemma b2p_sum m1 Zi : 0 < m1 <= mmax -> 0 < Zi ->
  interp_lr m1 (b2p_m1s m2min mmax) (map Zq (b2p_m1s m2min mmax)) 1 1 = Zi ->
  trapezoid q_grid (map (fun q => wexp (lp m1 q)) q_grid) = wexp (xsub (m1u m1) logZ) / Zi * Zq m1.
Proof.
  intros Hr HZ Hi.
  pose proof (b2p_Z_pos a1 a2 loc1 loc2 scale1 scale2 d1 l0 l1 m1min mmax mb H1 H2 Hd1 Hl0 Hl1 Hl Hs1 Hs2) as P.
  assert (Hf : fin_or_ninf (m1u m1)).
  { destruct (Rlt_dec m1 m1min).
    - rewrite b2p_m1_edge by (auto; lra). exact I.
    - apply b2p_m1_fin; auto; lra. }
  rewrite (trapezoid_ext _ _ (fun q => wexp (m1u m1) / b2p_Z a1 a2 loc1 loc2 scale1 scale2 d1 l0 l1 m1min mmax mb / Zi * wexp (qu m1 q))).
  - rewrite trapezoid_scale. change (trapezoid q_grid (map (fun q => wexp (qu m1 q)) q_grid)) with (Zq m1).
    rewrite b2p_logZ_eq, wexp_xsub_ln by lra. reflexivity.
  - intros q Hq. destruct q_grid_facts as (_ & _ & _ & D). specialize (D q Hq).
    assert (Fq : fin_or_ninf (qu m1 q)) by (apply b2p_q_fin; lra).
    unfold b2p_log_prob. rewrite Hi, b2p_logZ_eq. destruct (Rle_dec Zi 0); [lra|].
    destruct (mass_ratio_mass_sandwich (Fin m2min) (Fin mmax) (Fin m1) (Fin q)) eqn:EM.
    + replace (validated validate true) with (fun x : X => x) by (destruct validate; reflexivity).
      rewrite wexp_combine; [|auto|exact Fq|lra|auto]. field. lra.
    + destruct validate eqn:EV.
      * unfold validated at 1. cbn [wexp]. unfold b2p_q_unnorm. rewrite EM. unfold validated. cbn [wexp]. ring.
      * unfold validated at 1.
        rewrite wexp_combine; [|auto|exact Fq|lra|auto]. field. lra.
Qed.
Theorem b2p_between m1 l a b r : b2p_m1s m2min mmax = l ++ a :: b :: r -> m2min < a -> a <= m1 <= b ->
  let p := wexp (xsub (m1u m1) logZ) in
  p * (ratio_sum beta d2 m2min a / ratio_sum beta d2 m2min b)
  <= trapezoid q_grid (map (fun q => wexp (lp m1 q)) q_grid)
  <= p * (ratio_sum beta d2 m2min b / ratio_sum beta d2 m2min a).
Proof.
  intros El Ha Hab p.
  assert (Hi : inc1 (b2p_m1s m2min mmax)) by (apply linspace_inc; [lra|lia]).
  assert (R0 : forall m, In m (b2p_m1s m2min mmax) -> m2min <= m <= mmax) by (intros m Hin; apply (linspace_range m2min mmax 1000); auto; [lra|lia]).
  assert (Ib : m2min <= b <= mmax) by (apply R0; rewrite El; apply in_or_app; right; right; now left).
  assert (Lab : a < b) by (rewrite El in Hi; exact (inc1_app_pair _ _ _ _ Hi)).
  pose proof (b2p_Zq_pos beta d2 m2min mmax validate H3 Hd2 a ltac:(lra) ltac:(lra)) as Pa.
  rewrite b2p_Zq_value in Pa by lra.
  pose proof (ratio_sum_mono beta d2 m2min a m1 Hd2 ltac:(lra)) as M1.
  pose proof (ratio_sum_mono beta d2 m2min m1 b Hd2 ltac:(lra)) as M2.
  set (Zi := interp_lr m1 (b2p_m1s m2min mmax) (map Zq (b2p_m1s m2min mmax)) 1 1).
  assert (EZi : ratio_sum beta d2 m2min a <= Zi <= ratio_sum beta d2 m2min b).
  { unfold Zi. rewrite El. rewrite interp_lr_between; [|rewrite <- El; exact Hi|exact Hab].
    rewrite !b2p_Zq_value by lra. apply lerp_between; lra. }
  rewrite (b2p_sum m1 Zi ltac:(lra) ltac:(lra) eq_refl). fold p. rewrite b2p_Zq_value by lra.
  apply ratio_between; try lra. apply wexp_nonneg.
Qed.
End B2p.

(** just above the smallest mass the taper is far below the interpolated table *)
Lemma planck_square x : 0 < x <= 1 / 2 -> planck x <= 4 * exp 2 * x ^ 2.
Proof.
  intros Hx. unfold planck. destruct (Rle_dec x 0); [lra|]. destruct (Rlt_dec x 1); [|lra].
  assert (A : exp (1 / x) >= / x ^ 2 / 4).
  { set (u := 1 / x / 2). assert (Hu : 0 < u) by (unfold u; apply Rdiv_lt_0_compat; [apply Rdiv_lt_0_compat|]; lra).
    assert (E : u <= exp u) by (pose proof (exp_ineq1 u ltac:(lra)); lra).
    assert (V : 1 / x = u + u) by (unfold u; field; lra). rewrite V, exp_plus.
    replace (/ x ^ 2 / 4) with (u * u) by (unfold u; field; lra). nra. }
  assert (B : exp (1 / (x - 1)) >= exp (- (2))).
  { apply Rle_ge. assert (L : - (2) <= 1 / (x - 1)).
    { replace (1 / (x - 1)) with (- (1 / (1 - x))) by (field; lra). apply Ropp_le_contravar. apply Rle_div_l; lra. }
    destruct L as [L|L]; [left; now apply exp_increasing|rewrite L; right; reflexivity]. }
  rewrite exp_plus.
  assert (P : 0 < / x ^ 2 / 4) by (apply Rdiv_lt_0_compat; [apply Rinv_0_lt_compat; nra|lra]).
  pose proof (exp_pos (- (2))) as P2.
  apply Rle_trans with (/ (/ x ^ 2 / 4 * exp (- (2)))).
  - apply Rinv_le_contravar; [nra|]. nra.
  - right. rewrite exp_Ropp. pose proof (exp_pos 2). field. split; [|lra]. lra.
Qed.
Definition plain_sum (beta : R) : R := trapezoid_sum (fun q => Rpower q beta) (nodes (5 / 1000) 1 500).
Lemma ratio_sum_upper beta delta mmin m1 : 0 < delta -> 0 < m1 ->
  ratio_sum beta delta mmin m1 <= plain_sum beta * planck ((m1 - mmin) / delta).
Proof.
  intros Hd H1. unfold ratio_sum, plain_sum. rewrite !trapezoid_sum_eq, q_nodes. destruct q_grid_facts as (A & _ & _ & D).
  rewrite Rmult_comm, <- trapezoid_scale. apply trapezoid_mono; auto. intros q Hq. specialize (D q Hq).
  rewrite Rmult_comm. apply Rmult_le_compat_r; [left; apply Rpower_pos|]. apply planck_mono.
  apply Rmult_le_compat_r; [left; now apply Rinv_0_lt_compat|]. nra.
Qed.
Lemma plain_sum_nonneg beta : 0 <= plain_sum beta.
Proof.
  unfold plain_sum. rewrite trapezoid_sum_eq, q_nodes. destruct q_grid_facts as (A & _ & _ & D).
  apply trapezoid_nonneg; auto. intros. left. apply Rpower_pos.
Qed.

Section First.
Variables alpha beta delta lambda loc mmax mmin scale : R.
Variable validate : bool.
Hypothesis Hm : 0 < mmin < mmax.
Hypothesis Hd : 0 < delta.
Hypothesis Hl : 0 <= lambda <= 1.
Hypothesis Hs : 0 < scale.
Theorem stc_first_cell eps : mmin + delta < mmax -> 0 < eps ->
  exists m1, mmin < m1 < mmin + eps /\ m1 <= mmax /\
  let p := wexp (xsub (stc_m1_unnorm alpha delta lambda loc mmax mmin scale m1) (stc_logZ alpha delta lambda loc mmax mmin scale)) in
  0 < p /\
  trapezoid q_grid (map (fun q => wexp (stc_log_prob alpha beta delta lambda loc mmax mmin scale validate m1 q)) q_grid) <= eps * p.
Proof.
  intros Hmd He.
  assert (Hi : inc1 (stc_m1s mmax mmin)) by (apply linspace_inc; [lra|lia]).
  assert (R0 : forall m, In m (stc_m1s mmax mmin) -> mmin <= m <= mmax) by (intros m Hin; apply (linspace_range mmin mmax 1000); auto; [lra|lia]).
  assert (HD : exists b r, stc_m1s mmax mmin = mmin :: b :: r).
  { pose proof (linspace_hd mmin mmax 1000 ltac:(lia)) as H. pose proof (linspace_length mmin mmax 1000) as L.
    unfold stc_m1s. destruct (linspace mmin mmax 1000) as [|a [|b r]]; [discriminate|discriminate|].
    cbn [hd] in H. subst a. eauto. }
  destruct HD as (b & r & El).
  assert (Ib : mmin <= b <= mmax) by (apply R0; rewrite El; right; now left).
  assert (Lab : mmin < b) by (rewrite El in Hi; exact (inc1_app_pair [] _ _ _ Hi)).
  pose proof (stc_Zq_pos beta delta mmax mmin validate Hm Hd b ltac:(lra) ltac:(lra)) as Pb.
  set (Zb := ratio_sum beta delta mmin b).
  assert (EZb : stc_Zq beta delta mmax mmin validate b = Zb) by (apply stc_Zq_value; auto; lra).
  rewrite EZb in Pb.
  set (K := plain_sum beta * (4 * exp 2) * ((b - mmin) / (delta * Zb))).
  assert (HK : 0 <= K).
  { unfold K. apply Rmult_le_pos; [apply Rmult_le_pos; [apply plain_sum_nonneg|pose proof (exp_pos 2); lra]|].
    apply Rmult_le_pos; [lra|left; apply Rinv_0_lt_compat, Rmult_lt_0_compat; lra]. }
  set (x := Rmin (Rmin (1 / 2) (eps / (2 * delta))) (Rmin ((b - mmin) / (2 * delta)) (eps / (K + 1)))).
  assert (Hx : 0 < x /\ x <= 1 / 2 /\ x <= eps / (2 * delta) /\ x <= (b - mmin) / (2 * delta) /\ x <= eps / (K + 1)).
  { assert (0 < eps / (2 * delta)) by (apply Rdiv_lt_0_compat; lra).
    assert (0 < (b - mmin) / (2 * delta)) by (apply Rdiv_lt_0_compat; lra).
    assert (0 < eps / (K + 1)) by (apply Rdiv_lt_0_compat; lra).
    unfold x. split; [repeat apply Rmin_glb_lt; lra|].
    pose proof (Rmin_l (Rmin (1 / 2) (eps / (2 * delta))) (Rmin ((b - mmin) / (2 * delta)) (eps / (K + 1)))).
    pose proof (Rmin_r (Rmin (1 / 2) (eps / (2 * delta))) (Rmin ((b - mmin) / (2 * delta)) (eps / (K + 1)))).
    pose proof (Rmin_l (1 / 2) (eps / (2 * delta))). pose proof (Rmin_r (1 / 2) (eps / (2 * delta))).
    pose proof (Rmin_l ((b - mmin) / (2 * delta)) (eps / (K + 1))). pose proof (Rmin_r ((b - mmin) / (2 * delta)) (eps / (K + 1))).
    repeat split; lra. }
  destruct Hx as (X0 & X1 & X2 & X3 & X4). clearbody x.
  assert (Y2 : delta * x <= eps / 2).
  { apply Rle_trans with (delta * (eps / (2 * delta))); [apply Rmult_le_compat_l; lra|]. right. field. lra. }
  assert (Y3 : delta * x <= (b - mmin) / 2).
  { apply Rle_trans with (delta * ((b - mmin) / (2 * delta))); [apply Rmult_le_compat_l; lra|]. right. field. lra. }
  assert (Y0 : 0 < delta * x) by (apply Rmult_lt_0_compat; lra).
  exists (mmin + delta * x). split; [lra|]. split; [lra|]. intros p.
  assert (Pp : 0 < p).
  { unfold p. destruct (stc_rest_integral alpha delta lambda loc mmax mmin scale Hm Hd Hl Hs Hmd) as (A & _ & PA & EA).
    set (N := stc_numerical alpha delta lambda loc mmax mmin scale).
    assert (HN : 0 <= N).
    { unfold N, stc_numerical. apply (trapezoid_nonneg (stc_edge_grid delta mmin) (fun m => wexp (stc_m1_unnorm alpha delta lambda loc mmax mmin scale m))).
      - apply linspace_inc; [lra|lia].
      - intros; apply wexp_nonneg. }
    assert (EZ : stc_logZ alpha delta lambda loc mmax mmin scale = xln (Fin (N + A))).
    { unfold stc_logZ. fold N. rewrite EA. reflexivity. }
    rewrite EZ, wexp_xsub_ln by lra. apply Rdiv_lt_0_compat; [|lra]. rewrite stc_m1_wexp by lra.
    apply Rmult_lt_0_compat; [apply stc_mix_pos; lra|]. apply taper_pos, scaled_pos; lra. }
  split; [exact Pp|].
  set (Zi := delta * x / (b - mmin) * Zb).
  assert (PZi : 0 < Zi) by (unfold Zi; apply Rmult_lt_0_compat; [apply Rdiv_lt_0_compat|]; lra).
  assert (EZi : interp_lr (mmin + delta * x) (stc_m1s mmax mmin) (map (stc_Zq beta delta mmax mmin validate) (stc_m1s mmax mmin)) 1 1 = Zi).
  { rewrite El. rewrite (interp_lr_between [] mmin b r); [|cbn [app]; rewrite <- El; exact Hi|lra].
    rewrite EZb. rewrite (stc_Zq_value beta delta mmax mmin validate) by (auto; lra).
    assert (Z0 : ratio_sum beta delta mmin mmin = 0).
    { apply Rle_antisym.
      - eapply Rle_trans; [apply ratio_sum_upper; lra|]. replace ((mmin - mmin) / delta) with 0 by (field; lra).
        unfold planck. destruct (Rle_dec 0 0); lra.
      - unfold ratio_sum. rewrite trapezoid_sum_eq, q_nodes. destruct q_grid_facts as (A & _ & _ & D).
        apply trapezoid_nonneg; auto. intros. apply Rmult_le_pos; [left; apply Rpower_pos|]. rewrite <- planck_taper. apply wexp_nonneg. }
    rewrite Z0. unfold Zi. field. lra. }
  rewrite (stc_sum alpha beta delta lambda loc mmax mmin scale validate Hm Hd Hl Hs (mmin + delta * x) Zi Hmd ltac:(lra) PZi EZi). fold p.
  rewrite (stc_Zq_value beta delta mmax mmin validate) by (auto; lra).
  pose proof (ratio_sum_upper beta delta mmin (mmin + delta * x) Hd ltac:(lra)) as U.
  replace ((mmin + delta * x - mmin) / delta) with x in U by (field; lra).
  pose proof (planck_square x ltac:(lra)) as Q.
  assert (U2 : ratio_sum beta delta mmin (mmin + delta * x) <= plain_sum beta * (4 * exp 2 * x ^ 2)).
  { eapply Rle_trans; [exact U|]. apply Rmult_le_compat_l; [apply plain_sum_nonneg|exact Q]. }
  apply Rle_trans with (p / Zi * (plain_sum beta * (4 * exp 2 * x ^ 2))).
  { apply Rmult_le_compat_l; [left; apply Rdiv_lt_0_compat; lra|exact U2]. }
  replace (p / Zi * (plain_sum beta * (4 * exp 2 * x ^ 2))) with (K * x * p).
  2:{ unfold K, Zi. field. repeat split; lra. }
  apply Rmult_le_compat_r; [lra|].
  apply Rle_trans with (K * (eps / (K + 1))); [apply Rmult_le_compat_l; lra|].
  replace (K * (eps / (K + 1))) with (eps * (K / (K + 1))) by (field; lra).
  assert (K / (K + 1) <= 1) by (apply Rle_div_l; lra). nra.
Qed.
End First.
