(** C67 for primary masses between the nodes of the tables. *)
From Coq Require Import Reals Lra Lia List Bool.
From Coquelicot Require Import Coquelicot.
From Verif Require Import Model_X Spec_X Spec_Density Model_Mass Proofs_MassGrid Proofs_SmoothedDensity Spec_MassBetween Proofs_MassBetween.
Import ListNotations.
Open Scope R_scope.

(** Between two nodes above the smallest mass the mass-ratio factor sums to one up to the factor by
    which its normaliser changes from one node to the next. *)
Theorem C67_smoothed_between : forall alpha beta delta lambda loc mmax mmin scale validate a b m1,
  0 < mmin -> 0 < delta -> mmin + delta < mmax -> 0 <= lambda <= 1 -> 0 < scale ->
  neighbours (nodes mmin mmax 1000) a b -> mmin < a -> a <= m1 <= b ->
  let primary := wexp (xsub (stc_m1_unnorm alpha delta lambda loc mmax mmin scale m1)
                            (stc_logZ alpha delta lambda loc mmax mmin scale)) in
  let total := trapezoid_sum (fun q => wexp (stc_log_prob alpha beta delta lambda loc mmax mmin scale validate m1 q))
                             (nodes (5 / 1000) 1 500) in
  primary * (ratio_sum beta delta mmin a / ratio_sum beta delta mmin b) <= total
  <= primary * (ratio_sum beta delta mmin b / ratio_sum beta delta mmin a).
Proof.
  intros alpha beta delta lambda loc mmax mmin scale validate a b m1 H1 H2 H3 H4 H5 (l & r & E) Ha Hab primary total.
  unfold total. rewrite trapezoid_sum_eq, q_nodes. rewrite nodes_eq in E by lia.
  apply (stc_between alpha beta delta lambda loc mmax mmin scale validate) with (l := l) (r := r); auto; lra.
Qed.
Print Assumptions C67_smoothed_between.

Theorem C67_two_peak_between : forall a1 a2 beta loc1 loc2 scale1 scale2 d1 d2 l0 l1 m1min m2min mmax mbreak validate a b m1,
  0 < m1min < mbreak -> mbreak < mmax -> 0 < m2min < mmax -> 0 < d1 -> 0 < d2 ->
  0 <= l0 -> 0 <= l1 -> l0 + l1 <= 1 -> 0 < scale1 -> 0 < scale2 ->
  neighbours (nodes m2min mmax 1000) a b -> m2min < a -> a <= m1 <= b ->
  let primary := wexp (xsub (b2p_m1_unnorm a1 a2 loc1 loc2 scale1 scale2 d1 l0 l1 m1min mmax mbreak m1)
                            (b2p_logZ a1 a2 loc1 loc2 scale1 scale2 d1 l0 l1 m1min mmax mbreak)) in
  let total := trapezoid_sum
      (fun q => wexp (b2p_log_prob a1 a2 beta loc1 loc2 scale1 scale2 d1 d2 l0 l1 m1min m2min mmax mbreak validate m1 q))
      (nodes (5 / 1000) 1 500) in
  primary * (ratio_sum beta d2 m2min a / ratio_sum beta d2 m2min b) <= total
  <= primary * (ratio_sum beta d2 m2min b / ratio_sum beta d2 m2min a).
Proof.
  intros a1 a2 beta loc1 loc2 scale1 scale2 d1 d2 l0 l1 m1min m2min mmax mbreak validate a b m1
    H1 H2 H3 H4 H5 H6 H7 H8 H9 H10 (l & r & E) Ha Hab primary total.
  unfold total. rewrite trapezoid_sum_eq, q_nodes. rewrite nodes_eq in E by lia.
  apply (b2p_between a1 a2 beta loc1 loc2 scale1 scale2 d1 d2 l0 l1 m1min m2min mmax mbreak validate) with (l := l) (r := r); auto.
Qed.
Print Assumptions C67_two_peak_between.

(** Both bounds are positive numbers, and they are one where the taper no longer matters. *)
Theorem C67_between_bounds : forall beta delta mmin a b, 0 < mmin < a -> a <= b -> 0 < delta ->
  0 < ratio_sum beta delta mmin a <= ratio_sum beta delta mmin b
  /\ ((mmin + delta) / (5 / 1000) <= a -> ratio_sum beta delta mmin a = ratio_sum beta delta mmin b).
Proof.
  intros beta delta mmin a b Hm Hab Hd. split; [split|].
  - rewrite <- (stc_Zq_value beta delta a mmin true) by lra. apply stc_Zq_pos; lra.
  - now apply ratio_sum_mono.
  - intros Ha. unfold ratio_sum. rewrite !trapezoid_sum_eq, q_nodes. apply trapezoid_ext. intros q Hq.
    unfold q_grid in Hq. apply linspace_range in Hq; [|lra|lia].
    assert (A : mmin + delta <= a * (5 / 1000)). { apply (Rle_div_l (mmin + delta) a (5 / 1000)); lra. }
    assert (P : forall m, a <= m -> 1 <= (m * q - mmin) / delta).
    { intros m Hma. apply Rle_div_r; [lra|]. nra. }
    f_equal. rewrite <- !planck_taper, !Proofs_Mass.window_high by (apply P; lra). reflexivity.
Qed.
Print Assumptions C67_between_bounds.

(** In the first cell of the table there is no such bound: the interpolated normaliser is far too
    large just above the smallest mass, where the density is suppressed by any factor. *)
Theorem C67_first_cell_refuted : forall alpha beta delta lambda loc mmax mmin scale validate eps,
  0 < mmin -> 0 < delta -> mmin + delta < mmax -> 0 <= lambda <= 1 -> 0 < scale -> 0 < eps ->
  exists m1, mmin < m1 < mmin + eps /\ m1 <= mmax /\
  let primary := wexp (xsub (stc_m1_unnorm alpha delta lambda loc mmax mmin scale m1)
                            (stc_logZ alpha delta lambda loc mmax mmin scale)) in
  0 < primary /\
  trapezoid_sum (fun q => wexp (stc_log_prob alpha beta delta lambda loc mmax mmin scale validate m1 q))
                (nodes (5 / 1000) 1 500) <= eps * primary.
Proof.
  intros alpha beta delta lambda loc mmax mmin scale validate eps H1 H2 H3 H4 H5 He.
  destruct (stc_first_cell alpha beta delta lambda loc mmax mmin scale validate ltac:(lra) H2 H4 H5 eps H3 He) as (m1 & A & B & C).
  exists m1. split; [exact A|]. split; [exact B|]. rewrite trapezoid_sum_eq, q_nodes. exact C.
Qed.
Print Assumptions C67_first_cell_refuted.

Example C67_between_nonvacuous : exists a b, neighbours (nodes 5 100 1000) a b /\ 5 < a /\ a <= b /\ 0 < ratio_sum 1 5 5 a.
Proof.
  pose proof (linspace_hd 5 100 1000 ltac:(lia)) as H. pose proof (linspace_length 5 100 1000) as L.
  pose proof (linspace_inc 5 100 1000 ltac:(lra) ltac:(lia)) as I.
  unfold neighbours. rewrite nodes_eq by lia. destruct (linspace 5 100 1000) as [|x [|a [|b r]]]; try discriminate.
  cbn [hd] in H. subst x. exists a, b.
  assert (5 < a) by exact (inc1_app_pair [] _ _ _ I). assert (a < b) by exact (inc1_app_pair [5] _ _ _ I).
  split; [exists [5], r; reflexivity|]. split; [lra|]. split; [lra|].
  apply (C67_between_bounds 1 5 5 a b); lra.
Qed.
