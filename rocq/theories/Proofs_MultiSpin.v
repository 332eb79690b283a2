From Coq Require Import Reals Lra Lia List Bool.
From Coquelicot Require Import Coquelicot.
From Verif Require Import Model_X Spec_X Proofs_X Proofs_Transform Spec_Density Model_Powerlaw Proofs_Powerlaw Model_Gauss Proofs_Gauss.
From Verif Require Import Model_Constraints Model_Mass Proofs_Mass Proofs_MassGrid Proofs_Integral Proofs_Spin Model_MultiSpin.
Import ListNotations.
Open Scope R_scope.

Lemma logaddexp_wexp a b : fin_or_ninf a -> fin_or_ninf b ->
  fin_or_ninf (logaddexp a b) /\ wexp (logaddexp a b) = wexp a + wexp b.
Proof.
  intros Ha Hb. unfold logaddexp. rewrite !xexp_wexp by auto. cbn [xadd].
  apply xln_nonneg_wexp. pose proof (wexp_nonneg a). pose proof (wexp_nonneg b). lra.
Qed.
Lemma logsumexp_where_fin l : List.Forall fin_or_ninf l ->
  fin_or_ninf (logsumexp_where (map (fun a => (negb (isneginf a), a)) l))
  /\ wexp (logsumexp_where (map (fun a => (negb (isneginf a), a)) l)) = rsum (map wexp l).
Proof.
  intros H. unfold logsumexp_where.
  replace (map snd (filter fst (map (fun a => (negb (isneginf a), a)) l))) with (filter (fun a => negb (isneginf a)) l).
  - rewrite logsumexp_filter_ninf, logsumexp_fin by auto. apply xln_nonneg_wexp. apply rsum_wexp_nonneg.
  - clear H. induction l as [|a l IH]; [reflexivity|]. cbn [map filter fst]. destruct (negb (isneginf a)); cbn [map snd]; now rewrite IH.
Qed.

Definition comp_ok (A1 B1 A2 B2 : R) (c : spin_comp) : Prop :=
  0 < a1_scale c /\ 0 < a2_scale c /\ 0 < t1_scale c /\ 0 < t2_scale c /\ 0 <= tilt_zeta c <= 1
  /\ A1 <= a1_low c /\ a1_low c < a1_high c /\ a1_high c <= B1 /\ A2 <= a2_low c /\ a2_low c < a2_high c /\ a2_high c <= B2.

Lemma tnl_fin x loc scale low high : 0 < scale -> low < high -> fin_or_ninf (truncnorm_logpdf x loc scale low high).
Proof.
  intros Hs Hl. destruct (Rlt_dec x low); [rewrite truncnorm_outside by auto; exact I|].
  destruct (Rlt_dec high x); [rewrite truncnorm_outside by auto; exact I|]. rewrite truncnorm_fin by lra. exact I.
Qed.
Lemma tnl_integral loc scale low high a b : 0 < scale -> a <= low -> low < high -> high <= b ->
  is_RInt (fun x => wexp (truncnorm_logpdf x loc scale low high)) a b 1.
Proof.
  intros Hs Ha Hl Hb. apply (is_RInt_widen _ low high); auto; [lra| |now apply truncnorm_normalised].
  intros x Hx. rewrite truncnorm_outside by auto. reflexivity.
Qed.

Lemma tilt_value t1 t2 c A1 B1 A2 B2 : comp_ok A1 B1 A2 B2 c ->
  fin_or_ninf (tilt_component t1 t2 c) /\
  wexp (tilt_component t1 t2 c)
  = tilt_zeta c * (wexp (truncnorm_logpdf t1 (t1_loc c) (t1_scale c) (- (1)) 1)
                   * wexp (truncnorm_logpdf t2 (t2_loc c) (t2_scale c) (- (1)) 1))
    + (1 - tilt_zeta c) * (1/2 * (1/2)).
Proof.
  intros (H1 & H2 & H3 & H4 & Hz & _). unfold tilt_component. cbv zeta.
  pose proof (tnl_fin t1 (t1_loc c) (t1_scale c) (- (1)) 1 H3 ltac:(lra)) as F1.
  pose proof (tnl_fin t2 (t2_loc c) (t2_scale c) (- (1)) 1 H4 ltac:(lra)) as F2.
  destruct (xln_nonneg_wexp (tilt_zeta c) ltac:(lra)) as [Z1 Z2].
  destruct (xln_nonneg_wexp (1 + - tilt_zeta c) ltac:(lra)) as [U1 U2].
  destruct (xln_nonneg_wexp (1/4) ltac:(lra)) as [V1 V2].
  unfold xlog1p. cbn [xadd]. change (xadd (Fin 1) (Fin (- tilt_zeta c))) with (Fin (1 + - tilt_zeta c)).
  assert (G : fin_or_ninf (xadd (xadd (xln (Fin (tilt_zeta c))) (truncnorm_logpdf t1 (t1_loc c) (t1_scale c) (- (1)) 1))
         (truncnorm_logpdf t2 (t2_loc c) (t2_scale c) (- (1)) 1))) by (apply fin_or_ninf_add; auto; now apply fin_or_ninf_add).
  assert (U : fin_or_ninf (xadd (xln (Fin (1 + - tilt_zeta c))) (xln (Fin (1/4))))) by now apply fin_or_ninf_add.
  destruct (logaddexp_wexp _ _ G U) as [A B]. split; auto. rewrite B.
  rewrite !wexp_xadd by (auto; now apply fin_or_ninf_add). rewrite Z2, U2, V2. field.
Qed.

Definition spin_part (a1 a2 t1 t2 : R) (c : spin_comp) : R :=
  wexp (a1_component a1 c) * wexp (a2_component a2 c) * wexp (tilt_component t1 t2 c).

Lemma in_open_4 A1 B1 A2 B2 xs : in_open [(A1, B1); (A2, B2); (-1, 1); (-1, 1)] xs ->
  exists a1 a2 t1 t2, xs = [a1; a2; t1; t2] /\ A1 < a1 < B1 /\ A2 < a2 < B2 /\ -1 < t1 < 1 /\ -1 < t2 < 1.
Proof.
  destruct xs as [|a1 [|a2 [|t1 [|t2 [|]]]]]; simpl; try tauto. intros H.
  exists a1, a2, t1, t2. tauto.
Qed.

Lemma spin_part_integral A1 B1 A2 B2 c : comp_ok A1 B1 A2 B2 c ->
  iterated_integral [(A1, B1); (A2, B2); (-1, 1); (-1, 1)] (on4 (fun a1 a2 t1 t2 => spin_part a1 a2 t1 t2 c)) 1.
Proof.
  intros Hc. pose proof Hc as (H1 & H2 & H3 & H4 & Hz & L1 & L2 & L3 & L4 & L5 & L6).
  set (f1 := fun a => wexp (a1_component a c)). set (f2 := fun a => wexp (a2_component a c)).
  set (g1 := fun t => wexp (truncnorm_logpdf t (t1_loc c) (t1_scale c) (- (1)) 1)).
  set (g2 := fun t => wexp (truncnorm_logpdf t (t2_loc c) (t2_scale c) (- (1)) 1)).
  assert (I1 : is_RInt f1 A1 B1 1) by (apply tnl_integral; auto).
  assert (I2 : is_RInt f2 A2 B2 1) by (apply tnl_integral; auto).
  assert (J1 : is_RInt g1 (-1) 1 1).
  { replace (-1) with (- (1)) by ring. apply tnl_integral; lra. }
  assert (J2 : is_RInt g2 (-1) 1 1).
  { replace (-1) with (- (1)) by ring. apply tnl_integral; lra. }
  assert (K : is_RInt (fun _ : R => 1/2) (-1) 1 1) by (apply is_RInt_const_R; field).
  pose (P := fun fvs : list ((R -> R) * R) => fun xs : list R => rprod (map (fun p => fst (fst p) (snd p)) (combine fvs xs))).
  apply (ii_ext _ (fun xs => tilt_zeta c * P [(f1, 1); (f2, 1); (g1, 1); (g2, 1)] xs
                             + (1 - tilt_zeta c) * P [(f1, 1); (f2, 1); (fun _ => 1/2, 1); (fun _ => 1/2, 1)] xs)).
  - intros xs Hxs. apply in_open_4 in Hxs as (a1 & a2 & t1 & t2 & -> & _). unfold P, on4, spin_part.
    cbn [combine map fst snd rprod]. rewrite (proj2 (tilt_value t1 t2 c _ _ _ _ Hc)). unfold f1, f2, g1, g2. ring.
  - apply (ii_value _ _ (tilt_zeta c * (1 * (1 * (1 * (1 * 1)))) + (1 - tilt_zeta c) * (1 * (1 * (1 * (1 * 1)))))); [ring|].
    apply ii_plus; apply ii_scal.
    + apply (ii_prod _ [(f1, 1); (f2, 1); (g1, 1); (g2, 1)]). repeat (constructor; [cbn [fst snd]; assumption|]). constructor.
    + apply (ii_prod _ [(f1, 1); (f2, 1); (fun _ : R => 1/2, 1); (fun _ : R => 1/2, 1)]).
      repeat (constructor; [cbn [fst snd]; assumption|]). constructor.
Qed.

Section Multi.
Variables a1 a2 beta loc1 loc2 scale1 scale2 d1 d2 l0 l1 m1min m2min mmax mb : R.
Variables bpl1 bpl2 n1 n2 : spin_comp.
Variable validate : bool.
Hypothesis H1 : 0 < m1min < mb.
Hypothesis H2 : mb < mmax.
Hypothesis H3 : 0 < m2min < mmax.
Hypothesis Hd1 : 0 < d1.
Hypothesis Hd2 : 0 < d2.
Hypothesis Hl0 : 0 <= l0.
Hypothesis Hl1 : 0 <= l1.
Hypothesis Hl : l0 + l1 <= 1.
Hypothesis Hs1 : 0 < scale1.
Hypothesis Hs2 : 0 < scale2.

Notation m1u := (b2p_m1_unnorm a1 a2 loc1 loc2 scale1 scale2 d1 l0 l1 m1min mmax mb).
Notation qu := (b2p_q_unnorm beta d2 m2min mmax validate).
Notation comps := (ms_m1_components a1 a2 loc1 loc2 scale1 scale2 d1 l0 l1 m1min mmax mb).
Notation qu' := (ms_q_unnorm beta d2 m2min).

(** the components add up to the primary-mass factor of the two-peak model *)
Lemma comps_low m : m < m1min -> comps m = [NInf; NInf; NInf; NInf].
Proof.
  intros Hm. unfold ms_m1_components. cbn [map]. destruct (Rle_dec d1 0); [reflexivity|].
  destruct (Rlt_dec m m1min); [reflexivity|lra].
Qed.
Lemma comps_spec m : m <= mmax -> List.Forall fin_or_ninf (comps m) /\ rsum (map wexp (comps m)) = wexp (m1u m).
Proof.
  intros Hm. destruct (Rlt_dec m m1min) as [L|L].
  { rewrite comps_low by auto. rewrite (b2p_m1_edge a1 a2 loc1 loc2 scale1 scale2 d1 l0 l1 m1min mmax mb) by (auto; lra). split; [repeat constructor|]. simpl. ring. }
  assert (P0 : 0 < m) by lra.
  rewrite b2p_m1_value by lra. rewrite wexp_xadd; [|apply taper_fin|exact I]. cbn [wexp].
  rewrite exp_ln by (apply b2p_mix_pos; auto; lra). unfold b2p_mix.
  unfold ms_m1_components. cbn [map]. destruct (Rle_dec d1 0); [lra|]. destruct (Rlt_dec m m1min); [lra|].
  replace (logaddexp (xopp (powerlaw_log_prob mb (- a1) m1min mb)) (xopp (powerlaw_log_prob mb (- a2) mb mmax)))
    with (xln (Fin (broken_Z a1 a2 m1min mmax mb))).
  2:{ symmetry. unfold logaddexp. rewrite !xexp_wexp.
      - cbn [xadd]. rewrite !(neg_lp_break m1min mb) by lra. fold (broken_Z a1 a2 m1min mmax mb). reflexivity.
      - rewrite log_prob_fin by lra. exact I.
      - rewrite log_prob_fin by lra. exact I. }
  pose proof (broken_Z_pos a1 a2 m1min mmax mb ltac:(lra) ltac:(lra)) as PZ.
  pose proof (taper_fin ((m - m1min) / d1)) as FT. set (T := log_planck_taper_window ((m - m1min) / d1)) in *.
  destruct (xln_nonneg_wexp l0 Hl0) as [A0 B0]. destruct (xln_nonneg_wexp l1 Hl1) as [A1 B1].
  destruct (xln_nonneg_wexp (1 + - (l0 + l1)) ltac:(lra)) as [A2 B2].
  pose proof (tnl_fin m loc1 scale1 m1min mmax Hs1 ltac:(lra)) as F1.
  pose proof (tnl_fin m loc2 scale2 m1min mmax Hs2 ltac:(lra)) as F2.
  unfold xlog1p. change (xadd (Fin 1) (Fin (- (l0 + l1)))) with (Fin (1 + - (l0 + l1))).
  rewrite (xln_pos mb), (xln_pos m) by lra. rewrite xsub_fin, !xmul_fin.
  rewrite (broken_density a1 a2 m1min mmax mb H1 H2 m P0).
  assert (RP : forall a, exp (a * (ln mb - ln m)) = Rpower (mb / m) a).
  { intros a. unfold Rpower. rewrite ln_div by lra. reflexivity. }
  set (u1 := if Rlt_dec m mb then Fin (a1 * (ln mb - ln m)) else NInf).
  set (u2 := if Rlt_dec m mb then NInf else Fin (a2 * (ln mb - ln m))).
  assert (FU : fin_or_ninf u1 /\ fin_or_ninf u2 /\ wexp u1 + wexp u2 = Rpower (mb / m) (if Rlt_dec m mb then a1 else a2)).
  { unfold u1, u2. destruct (Rlt_dec m mb); simpl; rewrite RP; repeat split; ring. }
  destruct FU as (FU1 & FU2 & EU).
  split.
  - repeat (constructor; [repeat first [assumption | apply fin_or_ninf_sub_ln | apply fin_or_ninf_add]|]). constructor.
  - cbn [rsum].
    rewrite !wexp_xadd by (repeat first [assumption | apply fin_or_ninf_sub_ln | apply fin_or_ninf_add]).
    rewrite !wexp_xsub_ln by auto. rewrite !wexp_xadd by (repeat first [assumption | apply fin_or_ninf_add]).
    rewrite B0, B1, B2, <- EU. field. lra.
Qed.
Lemma comps_length m : length (comps m) = 4%nat.
Proof. reflexivity. Qed.

Lemma ms_logZ_eq : ms_logZ a1 a2 loc1 loc2 scale1 scale2 d1 l0 l1 m1min mmax mb
  = b2p_logZ a1 a2 loc1 loc2 scale1 scale2 d1 l0 l1 m1min mmax mb.
Proof.
  unfold ms_logZ, b2p_logZ. do 2 f_equal. apply (trapezoid_ext (linspace m1min mmax 1000)). intros m Hm.
  apply linspace_range in Hm; [|lra|lia]. destruct (comps_spec m ltac:(lra)) as [_ E].
  change (wval (m1u m)) with (wexp (m1u m)). rewrite <- E.
  generalize (comps m). intros l. induction l as [|x l IH]; [reflexivity|].
  cbn [fold_right map rsum]. rewrite IH. reflexivity.
Qed.

Lemma qu_agree m q : m2min <= m <= mmax -> 0 < q <= 1 -> wexp (qu' m q) = wexp (qu m q).
Proof.
  intros Hm Hq. unfold b2p_q_unnorm, ms_q_unnorm, validated. destruct validate; [|reflexivity].
  destruct (mass_ratio_mass_sandwich _ _ _ _) eqn:E; [reflexivity|].
  destruct (Rle_dec d2 0); [reflexivity|]. destruct (Rlt_dec (m * q) m2min) as [|N]; [reflexivity|].
  exfalso. assert (mass_ratio_mass_sandwich (Fin m2min) (Fin mmax) (Fin m) (Fin q) = true); [|congruence].
  apply pmr_sandwich; [lra|lra|]. repeat split; [lra| |lra]. apply Rle_div_l; lra.
Qed.
Lemma Zq_agree m : m2min <= m <= mmax -> ms_Zq beta d2 m2min m = b2p_Zq beta d2 m2min mmax validate m.
Proof.
  intros Hm. unfold ms_Zq, b2p_Zq. apply (trapezoid_ext q_grid). intros q Hq.
  apply qu_agree; auto. now apply q_grid_facts.
Qed.
Lemma ms_q_fin m q : 0 < q -> fin_or_ninf (qu' m q).
Proof.
  intros Hq. unfold ms_q_unnorm. destruct (Rle_dec d2 0); [exact I|]. destruct (Rlt_dec (m * q) m2min); [exact I|].
  rewrite xln_fin, xmul_fin by auto. apply fin_or_ninf_add; [exact I|apply taper_fin].
Qed.

Notation A1 := (ms_min bpl1 bpl2 n1 n2 a1_low).
Notation B1 := (ms_max bpl1 bpl2 n1 n2 a1_high).
Notation A2 := (ms_min bpl1 bpl2 n1 n2 a2_low).
Notation B2 := (ms_max bpl1 bpl2 n1 n2 a2_high).
Definition comp_ok0 (c : spin_comp) : Prop :=
  0 < a1_scale c /\ 0 < a2_scale c /\ 0 < t1_scale c /\ 0 < t2_scale c /\ 0 <= tilt_zeta c <= 1
  /\ a1_low c < a1_high c /\ a2_low c < a2_high c.
Hypothesis Hc : List.Forall comp_ok0 [bpl1; bpl2; n1; n2].

Lemma comps_ok : List.Forall (comp_ok A1 B1 A2 B2) [bpl1; bpl2; n1; n2].
Proof.
  apply Forall_forall. intros c Hin. rewrite Forall_forall in Hc. specialize (Hc c Hin).
  destruct Hc as (S1 & S2 & S3 & S4 & Z & L1 & L2). unfold comp_ok.
  assert (M : forall f, ms_min bpl1 bpl2 n1 n2 f <= f c).
  { intros f. unfold ms_min.
    pose proof (Rmin_l (Rmin (Rmin (f bpl1) (f bpl2)) (f n1)) (f n2)). pose proof (Rmin_r (Rmin (Rmin (f bpl1) (f bpl2)) (f n1)) (f n2)).
    pose proof (Rmin_l (Rmin (f bpl1) (f bpl2)) (f n1)). pose proof (Rmin_r (Rmin (f bpl1) (f bpl2)) (f n1)).
    pose proof (Rmin_l (f bpl1) (f bpl2)). pose proof (Rmin_r (f bpl1) (f bpl2)).
    destruct Hin as [<-|[<-|[<-|[<-|[]]]]]; lra. }
  assert (N : forall f, f c <= ms_max bpl1 bpl2 n1 n2 f).
  { intros f. unfold ms_max.
    pose proof (Rmax_l (Rmax (Rmax (f bpl1) (f bpl2)) (f n1)) (f n2)). pose proof (Rmax_r (Rmax (Rmax (f bpl1) (f bpl2)) (f n1)) (f n2)).
    pose proof (Rmax_l (Rmax (f bpl1) (f bpl2)) (f n1)). pose proof (Rmax_r (Rmax (f bpl1) (f bpl2)) (f n1)).
    pose proof (Rmax_l (f bpl1) (f bpl2)). pose proof (Rmax_r (f bpl1) (f bpl2)).
    destruct Hin as [<-|[<-|[<-|[<-|[]]]]]; lra. }
  repeat split; auto; lra.
Qed.

Lemma joint_components l cs x1 x2 t1 t2 : List.Forall fin_or_ninf l -> List.Forall (comp_ok A1 B1 A2 B2) cs -> length l = length cs ->
  let component := map (fun mc => xadd (xadd (xadd (fst mc) (a1_component x1 (snd mc))) (a2_component x2 (snd mc)))
                          (tilt_component t1 t2 (snd mc))) (combine l cs) in
  List.Forall fin_or_ninf component
  /\ rsum (map wexp component) = rsum (map (fun mc => wexp (fst mc) * spin_part x1 x2 t1 t2 (snd mc)) (combine l cs)).
Proof.
  intros HlF HcF HL. revert cs HcF HL. induction HlF as [|m l Hm HlF IH]; intros cs HcF HL; destruct cs as [|c cs]; try discriminate.
  - split; [constructor|reflexivity].
  - pose proof (Forall_inv HcF) as Hc1. pose proof (Forall_inv_tail HcF) as Hc2. injection HL as HL.
    destruct (IH cs Hc2 HL) as [FA EA]. cbn [combine map fst snd].
    pose proof Hc1 as (S1 & S2 & S3 & S4 & Z & L1 & L2 & L3 & L4 & L5 & L6).
    assert (G1 : fin_or_ninf (a1_component x1 c)) by now apply tnl_fin.
    assert (G2 : fin_or_ninf (a2_component x2 c)) by now apply tnl_fin.
    destruct (tilt_value t1 t2 c _ _ _ _ Hc1) as [G3 _].
    split.
    + constructor; auto. repeat (apply fin_or_ninf_add; auto).
    + cbn [rsum]. rewrite EA. rewrite !wexp_xadd by (auto; repeat (apply fin_or_ninf_add; auto)). unfold spin_part. ring.
Qed.

Lemma weighted_integral l cs : List.Forall (comp_ok A1 B1 A2 B2) cs -> length l = length cs ->
  iterated_integral [(A1, B1); (A2, B2); (-1, 1); (-1, 1)]
    (on4 (fun x1 x2 t1 t2 => rsum (map (fun mc => wexp (fst mc) * spin_part x1 x2 t1 t2 (snd mc)) (combine l cs))))
    (rsum (map wexp l)).
Proof.
  intros HcF. revert l. induction HcF as [|c cs Hc1 HcF IH]; intros l HL; destruct l as [|m l]; try discriminate.
  - apply (ii_ext _ (fun xs => 0 * on4 (fun x1 x2 t1 t2 => spin_part x1 x2 t1 t2 bpl1) xs)).
    + intros xs Hxs. apply in_open_4 in Hxs as (x1 & x2 & t1 & t2 & -> & _). simpl. ring.
    + apply (ii_value _ _ (0 * 1)); [simpl; ring|]. apply ii_scal. apply spin_part_integral. exact (Forall_inv comps_ok).
  - injection HL as HL. specialize (IH l HL).
    apply (ii_ext _ (fun xs => wexp m * on4 (fun x1 x2 t1 t2 => spin_part x1 x2 t1 t2 c) xs
      + on4 (fun x1 x2 t1 t2 => rsum (map (fun mc => wexp (fst mc) * spin_part x1 x2 t1 t2 (snd mc)) (combine l cs))) xs)).
    + intros xs Hxs. apply in_open_4 in Hxs as (x1 & x2 & t1 & t2 & -> & _). reflexivity.
    + apply (ii_value _ _ (wexp m * 1 + rsum (map wexp l))); [cbn [map rsum]; ring|].
      apply ii_plus; [|exact IH]. apply ii_scal. now apply spin_part_integral.
Qed.

(** the log density is that of the two-peak model times the share of each component at the mass *)
Lemma ms_pointwise m q : m <= mmax -> 0 < q -> exists k,
  wexp (b2p_log_prob a1 a2 beta loc1 loc2 scale1 scale2 d1 d2 l0 l1 m1min m2min mmax mb validate m q) = k * wexp (m1u m)
  /\ forall x1 x2 t1 t2, -1 <= t1 <= 1 -> -1 <= t2 <= 1 ->
     fin_or_ninf (ms_log_prob a1 a2 beta loc1 loc2 scale1 scale2 d1 d2 l0 l1 m1min m2min mmax mb bpl1 bpl2 n1 n2 validate m q x1 x2 t1 t2)
     /\ wexp (ms_log_prob a1 a2 beta loc1 loc2 scale1 scale2 d1 d2 l0 l1 m1min m2min mmax mb bpl1 bpl2 n1 n2 validate m q x1 x2 t1 t2)
        = k * rsum (map (fun mc => wexp (fst mc) * spin_part x1 x2 t1 t2 (snd mc)) (combine (comps m) [bpl1; bpl2; n1; n2])).
Proof.
  intros Hm Hq. destruct (comps_spec m Hm) as [FC EC]. pose proof comps_ok as HC.
  assert (PZ : 0 < b2p_Z a1 a2 loc1 loc2 scale1 scale2 d1 l0 l1 m1min mmax mb) by (apply b2p_Z_pos; auto).
  assert (FM : fin_or_ninf (m1u m)).
  { destruct (Rlt_dec m m1min); [rewrite b2p_m1_edge by lra; exact I|apply b2p_m1_fin; lra]. }
  assert (EZ : map (ms_Zq beta d2 m2min) (ms_m1s m2min mmax) = map (b2p_Zq beta d2 m2min mmax validate) (b2p_m1s m2min mmax)).
  { apply map_ext_in. intros x Hx. apply Zq_agree. unfold ms_m1s in Hx. apply linspace_range in Hx; [lra|lra|lia]. }
  set (S := mass_ratio_mass_sandwich (Fin m2min) (Fin mmax) (Fin m) (Fin q)).
  set (Zi := interp_lr m (b2p_m1s m2min mmax) (map (b2p_Zq beta d2 m2min mmax validate) (b2p_m1s m2min mmax)) 1 1).
  set (Zp := if Rle_dec Zi 0 then 1 else Zi).
  assert (PZp : 0 < Zp) by (unfold Zp; destruct (Rle_dec Zi 0); lra).
  assert (EL : (if Rle_dec Zi 0 then Fin 0 else xln (Fin Zi)) = xln (Fin Zp)).
  { unfold Zp. destruct (Rle_dec Zi 0); [|reflexivity]. rewrite xln_pos, ln_1 by lra. reflexivity. }
  set (Zn := b2p_Z a1 a2 loc1 loc2 scale1 scale2 d1 l0 l1 m1min mmax mb) in *.
  set (k := if validate then (if S then wexp (qu' m q) / Zn / Zp else 0) else wexp (qu' m q) / Zn / Zp).
  exists k. split.
  { unfold b2p_log_prob. fold S. fold Zi. rewrite EL, b2p_logZ_eq. fold Zn.
    assert (FQ : fin_or_ninf (qu m q)) by (now apply b2p_q_fin).
    unfold k, validated. destruct validate; [destruct S eqn:ES|].
    - rewrite wexp_combine by auto. unfold b2p_q_unnorm, validated. fold S. rewrite ES. unfold ms_q_unnorm. field. lra.
    - cbn [wexp]. ring.
    - rewrite wexp_combine by auto. change (b2p_q_unnorm beta d2 m2min mmax false m q) with (qu' m q). field. lra. }
  intros x1 x2 t1 t2 Ht1 Ht2.
  destruct (joint_components (comps m) [bpl1; bpl2; n1; n2] x1 x2 t1 t2 FC HC eq_refl) as [FJ EJ].
  assert (OUT : ~ (A1 <= x1 <= B1 /\ A2 <= x2 <= B2) ->
    rsum (map (fun mc => wexp (fst mc) * spin_part x1 x2 t1 t2 (snd mc)) (combine (comps m) [bpl1; bpl2; n1; n2])) = 0).
  { intros HO. clear -HO HC. generalize (comps m). intros l. revert l. induction HC as [|c cs Hc1 HcF IH]; intros [|y l]; try reflexivity.
    cbn [combine map rsum fst snd]. rewrite IH. destruct Hc1 as (S1 & S2 & S3 & S4 & Z & L1 & L2 & L3 & L4 & L5 & L6).
    unfold spin_part, a1_component, a2_component.
    destruct (Rlt_dec x1 A1); [rewrite (truncnorm_outside x1) by lra; cbn [wexp]; ring|].
    destruct (Rlt_dec B1 x1); [rewrite (truncnorm_outside x1) by lra; cbn [wexp]; ring|].
    rewrite (truncnorm_outside x2); [cbn [wexp]; ring|].
    destruct (Rlt_dec x2 A2); [lra|]. destruct (Rlt_dec B2 x2); [lra|]. exfalso. apply HO. lra. }
  unfold ms_log_prob.
  set (component := map _ (combine (comps m) _)) in *. destruct (logsumexp_where_fin component FJ) as [FW EW].
  rewrite EZ. change (ms_m1s m2min mmax) with (b2p_m1s m2min mmax). fold Zi. rewrite EL, ms_logZ_eq, b2p_logZ_eq. fold Zn.
  assert (FQ : fin_or_ninf (qu' m q)) by now apply ms_q_fin.
  set (W := logsumexp_where _) in *.
  assert (FF : fin_or_ninf (xsub (xadd W (xsub (qu' m q) (xln (Fin Zp)))) (xln (Fin Zn)))).
  { apply fin_or_ninf_sub_ln; auto. apply fin_or_ninf_add; auto. now apply fin_or_ninf_sub_ln. }
  assert (EV : wexp (xsub (xadd W (xsub (qu' m q) (xln (Fin Zp)))) (xln (Fin Zn))) = wexp (qu' m q) / Zn / Zp * wexp W).
  { rewrite wexp_xsub_ln by auto. rewrite wexp_xadd by (auto; now apply fin_or_ninf_sub_ln). rewrite wexp_xsub_ln by auto. field. lra. }
  split.
  { unfold validated. destruct validate; [|exact FF]. destruct (ms_support _ _ _ _ _ _ _ _ _ _ _ _); [exact FF|exact I]. }
  destruct (Rle_dec A1 x1) as [L1|L1], (Rle_dec x1 B1) as [L2|L2], (Rle_dec A2 x2) as [L3|L3], (Rle_dec x2 B2) as [L4|L4].
  1:{ assert (ES : ms_support m2min mmax bpl1 bpl2 n1 n2 m q x1 x2 t1 t2 = S).
      { unfold ms_support, interval. fold S.
        destruct (Rle_dec A1 x1); [|lra]. destruct (Rle_dec x1 B1); [|lra]. destruct (Rle_dec A2 x2); [|lra]. destruct (Rle_dec x2 B2); [|lra].
        destruct (Rle_dec (- (1)) t1); [|lra]. destruct (Rle_dec t1 1); [|lra]. destruct (Rle_dec (- (1)) t2); [|lra].
        destruct (Rle_dec t2 1); [|lra]. now rewrite !andb_true_r. }
      rewrite <- EJ. rewrite <- EW. fold W. rewrite ES. unfold k, validated. destruct validate; [destruct S|]; rewrite ?EV; cbn [wexp]; ring. }
  all: rewrite OUT by lra; rewrite Rmult_0_r; unfold validated;
    assert (EW0 : wexp W = 0) by (rewrite EW, EJ, OUT by lra; reflexivity);
    (destruct validate; [destruct (ms_support _ _ _ _ _ _ _ _ _ _ _ _)|]); rewrite ?EV, ?EW0; cbn [wexp]; ring.
Qed.

Theorem ms_marginal m q : m <= mmax -> 0 < q ->
  iterated_integral [(A1, B1); (A2, B2); (-1, 1); (-1, 1)]
    (on4 (fun x1 x2 t1 t2 => wexp (ms_log_prob a1 a2 beta loc1 loc2 scale1 scale2 d1 d2 l0 l1 m1min m2min mmax mb
                                     bpl1 bpl2 n1 n2 validate m q x1 x2 t1 t2)))
    (wexp (b2p_log_prob a1 a2 beta loc1 loc2 scale1 scale2 d1 d2 l0 l1 m1min m2min mmax mb validate m q)).
Proof.
  intros Hm Hq. destruct (comps_spec m Hm) as [FC EC]. pose proof comps_ok as HC.
  destruct (ms_pointwise m q Hm Hq) as (k & Ek & Ev). rewrite Ek.
  apply (ii_ext _ (fun xs => k * on4 (fun x1 x2 t1 t2 => rsum (map (fun mc => wexp (fst mc) * spin_part x1 x2 t1 t2 (snd mc))
            (combine (comps m) [bpl1; bpl2; n1; n2]))) xs)).
  2:{ apply ii_scal. rewrite <- EC. apply weighted_integral; auto. }
  intros xs Hxs. apply in_open_4 in Hxs as (x1 & x2 & t1 & t2 & -> & B1' & B2' & B3' & B4'). unfold on4.
  symmetry. apply Ev; lra.
Qed.

(** the weights of the four components, before the taper *)
Definition ms_weights (m : R) : list R :=
  let b := wexp (broken_powerlaw_log_prob m a1 a2 m1min mmax mb) in
  [l0 * (if Rlt_dec m mb then b else 0); l0 * (if Rlt_dec m mb then 0 else b);
   l1 * wexp (truncnorm_logpdf m loc1 scale1 m1min mmax); (1 - (l0 + l1)) * wexp (truncnorm_logpdf m loc2 scale2 m1min mmax)].
Lemma comps_weights m : m1min <= m <= mmax ->
  map wexp (comps m) = map (Rmult (wexp (log_planck_taper_window ((m - m1min) / d1)))) (ms_weights m).
Proof.
  intros Hm. assert (P0 : 0 < m) by lra.
  unfold ms_m1_components. cbn [map]. destruct (Rle_dec d1 0); [lra|]. destruct (Rlt_dec m m1min); [lra|].
  replace (logaddexp (xopp (powerlaw_log_prob mb (- a1) m1min mb)) (xopp (powerlaw_log_prob mb (- a2) mb mmax)))
    with (xln (Fin (broken_Z a1 a2 m1min mmax mb))).
  2:{ symmetry. unfold logaddexp. rewrite !xexp_wexp.
      - cbn [xadd]. rewrite !(neg_lp_break m1min mb) by lra. fold (broken_Z a1 a2 m1min mmax mb). reflexivity.
      - rewrite log_prob_fin by lra. exact I.
      - rewrite log_prob_fin by lra. exact I. }
  pose proof (broken_Z_pos a1 a2 m1min mmax mb ltac:(lra) ltac:(lra)) as PZ.
  pose proof (taper_fin ((m - m1min) / d1)) as FT. set (T := log_planck_taper_window ((m - m1min) / d1)) in *.
  destruct (xln_nonneg_wexp l0 Hl0) as [A0 B0]. destruct (xln_nonneg_wexp l1 Hl1) as [A1' B1'].
  destruct (xln_nonneg_wexp (1 + - (l0 + l1)) ltac:(lra)) as [A2' B2'].
  pose proof (tnl_fin m loc1 scale1 m1min mmax Hs1 ltac:(lra)) as F1.
  pose proof (tnl_fin m loc2 scale2 m1min mmax Hs2 ltac:(lra)) as F2.
  unfold xlog1p. change (xadd (Fin 1) (Fin (- (l0 + l1)))) with (Fin (1 + - (l0 + l1))).
  rewrite (xln_pos mb), (xln_pos m) by lra. rewrite xsub_fin, !xmul_fin.
  unfold ms_weights. cbv zeta. cbn [map]. rewrite (broken_density a1 a2 m1min mmax mb H1 H2 m P0).
  assert (RP : forall a, exp (a * (ln mb - ln m)) = Rpower (mb / m) a).
  { intros a. unfold Rpower. rewrite ln_div by lra. reflexivity. }
  set (u1 := if Rlt_dec m mb then Fin (a1 * (ln mb - ln m)) else NInf).
  set (u2 := if Rlt_dec m mb then NInf else Fin (a2 * (ln mb - ln m))).
  assert (FU : fin_or_ninf u1 /\ fin_or_ninf u2) by (unfold u1, u2; destruct (Rlt_dec m mb); split; exact I). destruct FU as [FU1 FU2].
  rewrite !wexp_xadd by (repeat first [assumption | apply fin_or_ninf_sub_ln | apply fin_or_ninf_add]).
  rewrite !wexp_xsub_ln by (auto; now apply fin_or_ninf_add). rewrite !wexp_xadd by (repeat first [assumption | apply fin_or_ninf_add]).
  rewrite B0, B1', B2'. unfold u1, u2.
  destruct (Rlt_dec m mb); cbn [wexp]; rewrite RP; repeat (apply f_equal2; [field; lra|]); reflexivity.
Qed.
End Multi.
