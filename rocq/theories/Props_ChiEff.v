From Coq Require Import Reals Lra Lia List Bool.
From Coquelicot Require Import Coquelicot.
From Verif Require Import Model_X Model_Transform Model_ChiEff Spec_ChiEff Proofs_ChiEff.
Import ListNotations.
Open Scope R_scope.

Lemma component_even amax z : component_density amax (- z) = component_density amax z.
Proof.
  unfold component_density. rewrite Rabs_Ropp.
  destruct (Req_EM_T (- z) 0), (Req_EM_T z 0); auto; lra.
Qed.

Lemma component_nonneg amax z : 0 < amax -> 0 <= component_density amax z.
Proof.
  intros Hm. destruct (Req_dec z 0) as [->|Hz].
  - unfold component_density. destruct (Req_EM_T 0 0); lra.
  - destruct (Rlt_dec (Rabs z) amax) as [H|H].
    + rewrite component_density_at by auto. apply Rdiv_le_0_compat; [|lra].
      pose proof (ln_increasing (Rabs z) amax (Rabs_pos_lt _ Hz) H). lra.
    + rewrite component_density_out by lra. lra.
Qed.

Lemma density_even amax q chi v : chi_eff_density amax q chi v -> chi_eff_density amax q (- chi) v.
Proof.
  intros H. apply newton_integral_mirror in H. unfold chi_eff_density.
  apply (newton_integral_ext _ _ _ _ _) with (2 := H). intros x _. rewrite component_even. f_equal. f_equal.
  rewrite <- component_even. f_equal. ring.
Qed.

Lemma density_nonneg amax q chi v : 0 < amax -> 0 < q -> chi_eff_density amax q chi v -> 0 <= v.
Proof.
  intros Hm Hq (P & E & Hc & Hd & ->).
  enough (P (- amax) <= P amax) by lra.
  apply (nondecreasing_except E P) with (2 := Hc) (4 := Hd); [lra|].
  intros x _. apply Rmult_le_pos; [now apply component_nonneg|].
  apply Rmult_le_pos; [lra|now apply component_nonneg].
Qed.

(** C100: the analytic prior on the effective spin is the exact density of the effective spin for
    uniform spin magnitudes and isotropic directions.  For every mass ratio 0 < q <= 1, every
    maximal spin and every chi_eff the code returns the finite number that is the density at
    chi_eff, except at chi_eff = 0 for equal masses and at |chi_eff| = q amax/(1+q) for q < 1/2. *)
Theorem C100_exact_density : forall Li2 chi_eff q amax,
  dilogarithm Li2 -> 0 < q <= 1 -> 0 < amax ->
  ~ (chi_eff = 0 /\ q = 1) ->
  ~ (Rabs chi_eff = q * amax / (1 + q) /\ q < / 2) ->
  exists v, chi_effective_prior Li2 chi_eff q amax = Fin v
    /\ chi_eff_density amax q chi_eff v
    /\ 0 <= v.
Proof.
  intros Li2 chi q amax HL Hq Hm Hz Hs.
  set (A := amax / (1 + q)). set (B := q * amax / (1 + q)).
  assert (HA : 0 < A) by (apply Rdiv_lt_0_compat; lra).
  assert (HB : 0 < B) by (apply Rdiv_lt_0_compat; nra).
  assert (EM : amax = A + B) by (unfold A, B; field; lra).
  assert (ED : max_difference q amax = A - B) by (unfold max_difference, A, B; field; lra).
  assert (EB : B = q * A) by (unfold A, B; field; lra).
  assert (HBA : B <= A) by nra.
  assert (Hall : exists v, chi_effective_prior Li2 chi q amax = Fin v /\ chi_eff_density amax q (Rabs chi) v).
  { unfold chi_effective_prior. rewrite ED.
    pose proof (Rabs_pos chi) as Hc0. destruct (Req_dec (Rabs chi) 0) as [E0|E0].
    - assert (chi = 0) by (destruct (Req_dec chi 0); auto; exfalso; now apply (Rabs_no_R0 chi)). subst chi.
      assert (Hq1 : q < 1) by (destruct (Req_dec q 1); [exfalso; apply Hz; auto|lra]).
      rewrite Rabs_R0. destruct (Rlt_dec 0 (A - B)); [|nra].
      rewrite lower_zero by lra. fold A B. eexists; split; [reflexivity|].
      pose proof (density_from_anti q amax 0 (Phi0 A B) Hq Hm (Rle_refl 0) (continuous_Phi0 A B)) as H.
      fold A B in H. rewrite (Rmax_left B), (Rmax_left (- B)) in H by lra. apply H.
      intros y Hy _. rewrite Rminus_0_r. now apply is_derive_Phi0.
    - assert (Hc : 0 < Rabs chi) by lra. set (c := Rabs chi) in *.
      pose proof (density_from_anti q amax c (Phi Li2 A B c) Hq Hm (Rlt_le _ _ Hc)
                    (continuous_Phi Li2 A B c HL Hc)) as H.
      fold A B in H. specialize (H (is_derive_Phi Li2 A B c HL Hc)).
      destruct (Rlt_dec c (A - B)) as [Hlow|Hlow].
      + assert (Hne : c <> B). { intros E. apply Hs. split; [exact E|]. nra. }
        rewrite (lower_value Li2 c q amax Hq Hm Hc Hne). fold A B. eexists; split; [reflexivity|].
        rewrite (Rmax_left B), (Rmax_left (- B)) in H by lra. exact H.
      + destruct (Rlt_dec c amax) as [Hup|Hup].
        * rewrite (upper_value Li2 c q amax Hq Hm Hc). fold A B. eexists; split; [reflexivity|].
          rewrite (Rmax_left B), (Rmax_right (- B)) in H by lra. exact H.
        * exists 0. split; [reflexivity|].
          rewrite (Rmax_right B), (Rmax_right (- B)) in H by lra.
          replace 0 with ((Phi Li2 A B c (c - A) - Phi Li2 A B c (c - A)) / (4 * A * B)) by (field; lra).
          exact H. }
  destruct Hall as (v & Hv & Hd). exists v. split; [exact Hv|].
  assert (Hd' : chi_eff_density amax q chi v).
  { unfold Rabs in Hd. destruct (Rcase_abs chi); auto. rewrite <- (Ropp_involutive chi). now apply density_even. }
  split; [exact Hd'|]. apply density_nonneg with (3 := Hd'); lra.
Qed.
Print Assumptions C100_exact_density.

(** the density is determined: at most one number is the density at a given effective spin *)
Theorem C100_density_unique : forall amax q chi v w,
  0 < amax -> chi_eff_density amax q chi v -> chi_eff_density amax q chi w -> v = w.
Proof. intros amax q chi v w Hm. apply newton_integral_unique. lra. Qed.
Print Assumptions C100_density_unique.

(** at |chi_eff| = q amax/(1+q), for q < 1/2, the code returns +inf; the density is finite there *)
Theorem C100_infinite_value_refuted : forall Li2 q amax,
  dilogarithm Li2 -> 0 < q < / 2 -> 0 < amax ->
  chi_effective_prior Li2 (q * amax / (1 + q)) q amax = PInf
  /\ exists v, chi_eff_density amax q (q * amax / (1 + q)) v.
Proof.
  intros Li2 q amax HL Hq Hm.
  set (A := amax / (1 + q)). set (B := q * amax / (1 + q)).
  assert (HA : 0 < A) by (apply Rdiv_lt_0_compat; lra).
  assert (HB : 0 < B) by (apply Rdiv_lt_0_compat; nra).
  assert (ED : max_difference q amax = A - B) by (unfold max_difference, A, B; field; lra).
  assert (EB : B = q * A) by (unfold A, B; field; lra).
  split.
  - unfold chi_effective_prior. rewrite (Rabs_pos_eq B) by lra. rewrite ED.
    destruct (Rlt_dec B (A - B)); [|nra].
    unfold lower, secondary_ratio, max_secondary, max_primary. fold A B.
    rewrite xdiv_fin by lra. replace (B / B) with 1 by (field; lra).
    cbn [xmul]. rewrite (xdiv_fin 1 (1 * 1)) by lra. unfold xsub. cbn [xopp xadd xabs].
    replace (1 / (1 * 1) + - (1)) with 0 by field. replace (1 + - (1)) with 0 by ring. rewrite Rabs_R0.
    rewrite (xln_fin (q * q)) by nra. rewrite (xdiv_fin 0 (1 + 1)) by lra.
    replace (0 / (1 + 1)) with 0 by field.
    assert (E : xln (Fin 0) = NInf).
    { unfold xln. destruct (Rlt_dec 0 0); [lra|]. destruct (Req_EM_T 0 0); [reflexivity|congruence]. }
    rewrite E. cbn [xopp xadd xli2 nan_to_num]. rewrite xdiv_fin by lra. cbn [xadd xdiv].
    destruct (Rlt_dec (4 * A) 0); [lra|reflexivity].
  - eexists. apply (density_from_anti q amax B (Phi Li2 A B B) ltac:(lra) Hm (Rlt_le _ _ HB)).
    + apply continuous_Phi; auto.
    + apply is_derive_Phi; auto.
Qed.
Print Assumptions C100_infinite_value_refuted.

(** at chi_eff = 0 with equal masses the code returns NaN; the density is finite there *)
Theorem C100_nan_value_refuted : forall Li2 amax,
  0 < amax ->
  chi_effective_prior Li2 0 1 amax = NaN /\ exists v, chi_eff_density amax 1 0 v.
Proof.
  intros Li2 amax Hm.
  assert (HA : 0 < amax / (1 + 1)) by (apply Rdiv_lt_0_compat; lra).
  assert (HB : 0 < 1 * amax / (1 + 1)) by (apply Rdiv_lt_0_compat; lra).
  split.
  - unfold chi_effective_prior. rewrite Rabs_R0.
    replace (max_difference 1 amax) with 0 by (unfold max_difference; field).
    destruct (Rlt_dec 0 0); [lra|]. destruct (Rlt_dec 0 amax); [|lra].
    unfold upper, secondary_ratio, primary_ratio, max_secondary, max_primary.
    assert (Hi : forall m, 0 < m -> xdiv (Fin m) (Fin 0) = PInf).
    { intros m H. unfold xdiv, xinf_times. destruct (Req_EM_T 0 0); [|congruence]. destruct (Rlt_dec 0 m); [reflexivity|contradiction]. }
    rewrite !Hi by assumption.
    assert (Hb : boundary_term PInf = Fin 0).
    { unfold boundary_term, xsub. cbn [xdiv xopp xadd xabs is_one]. rewrite Rplus_0_l, Rabs_Ropp, Rabs_R1, Rplus_0_r.
      rewrite xln_fin by lra. now rewrite ln_1. }
    rewrite Hb. rewrite (xln_fin 1) by lra. unfold xsub. cbn [xopp xadd xmul xli2 xln].
    unfold xinf_times. destruct (Rlt_dec 0 0); [lra|]. reflexivity.
  - eexists. apply (density_from_anti 1 amax 0 (Phi0 (amax / (1 + 1)) (1 * amax / (1 + 1))) ltac:(lra) Hm (Rle_refl 0)).
    + apply continuous_Phi0.
    + intros y Hy _. rewrite Rminus_0_r. now apply is_derive_Phi0.
Qed.
Print Assumptions C100_nan_value_refuted.

(** the dilogarithm assumed above exists *)
Theorem C100_dilogarithm_exists : exists Li2, dilogarithm Li2.
Proof. exists dilog. exact dilogarithm_exists. Qed.
Print Assumptions C100_dilogarithm_exists.

Example C100_nonvacuous :
  (exists v, chi_effective_prior dilog (- / 10) (/ 2) 1 = Fin v /\ chi_eff_density 1 (/ 2) (- / 10) v)
  /\ chi_effective_prior dilog 0 (/ 2) 1 = Fin (3 / 8 * (4 - 2 * ln (/ 2)))
  /\ chi_effective_prior dilog 1 (/ 2) 1 = Fin 0.
Proof.
  split; [|split].
  - destruct (C100_exact_density dilog (- / 10) (/ 2) 1 dilogarithm_exists) as (v & E & D & _); try lra.
    exists v. auto.
  - unfold chi_effective_prior. rewrite Rabs_R0. unfold max_difference.
    destruct (Rlt_dec 0 (1 * (1 - / 2) / (1 + / 2))); [|lra].
    rewrite lower_zero by lra. f_equal. unfold Phi0.
    replace (/ 2 * 1 / (1 + / 2)) with (/ 3) by lra. replace (1 / (1 + / 2)) with (2 / 3) by lra.
    rewrite Rabs_Ropp, Rabs_pos_eq by lra.
    replace (ln (2 / 3)) with (ln (/ 3) - ln (/ 2)); [field|].
    rewrite <- ln_quot by lra. f_equal. field.
  - unfold chi_effective_prior. rewrite Rabs_R1. unfold max_difference.
    destruct (Rlt_dec 1 (1 * (1 - / 2) / (1 + / 2))); [lra|]. destruct (Rlt_dec 1 1); [lra|reflexivity].
Qed.
