(** C121: prior_chieff_chip_isotropic is the exact joint density of the effective spin and the effective precession spin. *)
From Coq Require Import Reals Lra List Bool.
From Coquelicot Require Import Coquelicot.
From Verif Require Import Model_X Model_Transform Model_Population Spec_ChiEff Proofs_ChiEff Model_JointSpin Spec_JointSpin
  Proofs_Clog Proofs_JointSpin Proofs_JointDensity Proofs_Dilog.
Import ListNotations.
Open Scope R_scope.

(** the density is determined by its definition *)
Theorem C121_density_unique amax q chi chi_p v w : 0 < amax ->
  chi_eff_chi_p_density amax q chi chi_p v -> chi_eff_chi_p_density amax q chi chi_p w -> v = w.
Proof.
  intros A (v1 & v2 & -> & N1 & N2) (w1 & w2 & -> & M1 & M2).
  assert (AA : - amax <= amax) by lra.
  now rewrite (newton_integral_unique _ _ _ _ _ AA N1 M1), (newton_integral_unique _ _ _ _ _ AA N2 M2).
Qed.
Print Assumptions C121_density_unique.

(** inside the range of chi_p, the value is the density, whatever chi_eff *)
Theorem C121_exact_density Li2 chieff chip q amax : complex_dilogarithm Li2 ->
  0 < q <= 1 -> 0 < amax -> 0 < chip < amax ->
  exists v, prior_chieff_chip Li2 chieff chip q amax = Fin v /\ chi_eff_chi_p_density amax q chieff chip v.
Proof.
  intros L Q A P. assert (A2 : 0 < amax ^ 2) by nra.
  assert (P' : 0 < chip / amax < 1).
  { split; [apply Rdiv_lt_0_compat; lra|]. apply (Rmult_lt_reg_r amax); [exact A|]. unfold Rdiv. rewrite Rmult_assoc, Rinv_l; lra. }
  destruct (sum_density Li2 L (chieff / amax) (chip / amax) q Q P') as (v & E & D).
  exists (v / amax ^ 2). split.
  - unfold prior_chieff_chip. rewrite E. apply xdiv_fin. lra.
  - apply density_scale; try assumption; lra.
Qed.
Print Assumptions C121_exact_density.
Example C121_exact_density_nonvacuous :
  exists v, prior_chieff_chip Li2c (1 / 10) (1 / 4) (1 / 2) 1 = Fin v /\ chi_eff_chi_p_density 1 (1 / 2) (1 / 10) (1 / 4) v.
Proof. apply C121_exact_density; [exact complex_dilogarithm_exists|lra|lra|lra]. Qed.

(** a function with the derivatives of the dilogarithm exists *)
Theorem C121_dilogarithm_exists : exists Li2, complex_dilogarithm Li2.
Proof. exists Li2c. exact complex_dilogarithm_exists. Qed.
Print Assumptions C121_dilogarithm_exists.

Lemma ratio_ge_1 q : 0 < q <= 1 -> 1 <= ratio q.
Proof.
  intros Q. unfold ratio. apply (Rmult_le_reg_r (3 + 4 * q)); [lra|]. unfold Rdiv. rewrite Rmult_assoc, Rinv_l; lra.
Qed.
Lemma terms_zero Li2 chi p q : 0 < q <= 1 -> p <= 0 \/ 1 <= p ->
  I1 Li2 chi p q = Fin 0 /\ I2 Li2 chi p q = Fin 0 /\ I3 Li2 chi p q = Fin 0 /\ I4 Li2 chi p q = Fin 0.
Proof.
  intros Q [P|P].
  - assert (G : gtb p 0 = false) by (unfold gtb; destruct Rlt_dec; [lra|reflexivity]).
    unfold I1, I2, I3, I4. rewrite G. cbn [andb]. rewrite !masked_false. auto.
  - assert (G : gtb 1 p = false) by (unfold gtb; destruct Rlt_dec; [lra|reflexivity]).
    assert (E2 : I2 Li2 chi p q = Fin 0) by (unfold I2; rewrite G, andb_false_r; apply masked_false).
    pose proof (ratio_ge_1 q Q) as R1.
    destruct (Rle_dec ((4 + 3 * q) * p / (3 + 4 * q)) q) as [L|L].
    + replace ((4 + 3 * q) * p / (3 + 4 * q)) with (ratio q * p) in L by (unfold ratio; field; lra).
      assert (p = 1) by nra. subst p. assert (q = 1) by nra. subst q.
      assert (RR : ratio 1 = 1) by (unfold ratio; field).
      assert (Z1 : root_1 1 = Fin 0) by (unfold root_1; rewrite xsqrt_nonneg by lra; replace (1 - 1 ^ 2) with 0 by ring; now rewrite sqrt_0).
      assert (Z2 : root_2 1 1 = Fin 0).
      { unfold root_2. rewrite RR. rewrite xsqrt_nonneg by lra. replace (1 ^ 2 - 1 ^ 2 * 1 ^ 2) with 0 by ring. now rewrite sqrt_0. }
      set (a := (1 + 1) * chi).
      assert (K : forall strict hi lo k F, hi <= lo -> masked true strict (Fin hi) (Fin lo) (fun hi lo => k * (F hi - F lo)) = Fin 0).
      { intros strict hi lo k F0 HL. unfold masked. cbn [andb]. destruct strict; unfold xltb, xleb.
        - destruct Rlt_dec; [lra|reflexivity].
        - destruct Rle_dec; [|reflexivity]. replace lo with hi by lra. f_equal. ring. }
      assert (K' : forall c strict hi lo k F, hi <= lo -> masked c strict (Fin hi) (Fin lo) (fun hi lo => k * (F hi - F lo)) = Fin 0).
      { intros c strict hi lo k F0 HL. destruct c; [now apply K|apply masked_false]. }
      change (xsub (Fin a) (Fin 0)) with (Fin (a - 0)).
      split; [|split; [exact E2|split]].
      * unfold I1. fold a. rewrite Z1, Z2. change (xsub (Fin a) (Fin 0)) with (Fin (a - 0)). change (xadd (Fin a) (Fin 0)) with (Fin (a + 0)).
        change (xopp (Fin 0)) with (Fin (- 0)). rewrite xmin_fin, xmax_fin.
        apply (K' _ _ _ _ _ (fun x => F Li2 x a 1 (ratio 1 * 1) 1)).
        pose proof (Rmin_r 0 (a + 0)). pose proof (Rmax_r (- 0) (a - 0)). lra.
      * unfold I3. fold a. rewrite Z1, Z2. change (xsub (Fin a) (Fin 0)) with (Fin (a - 0)). change (xadd (Fin a) (Fin 0)) with (Fin (a + 0)).
        change (xopp (Fin 0)) with (Fin (- 0)). rewrite xmin_fin, xmax_fin.
        apply (K' _ _ _ _ _ (fun x => F Li2 x a (ratio 1 * 1) 1 1)).
        pose proof (Rmin_r 0 (a + 0)). pose proof (Rmax_r (- 0) (a - 0)). lra.
      * unfold I4. fold a. rewrite Z2. change (xsub (Fin a) (Fin 0)) with (Fin (a - 0)). change (xadd (Fin a) (Fin 0)) with (Fin (a + 0)).
        rewrite xmin_fin, xmax_fin.
        apply (K' _ _ _ _ _ (fun x => F Li2 x a (ratio 1 * 1) 0 1)).
        pose proof (Rmin_r 1 (a + 0)). pose proof (Rmax_r (- 1) (a - 0)). lra.
    + assert (GF : geb q ((4 + 3 * q) * p / (3 + 4 * q)) = false) by (unfold geb; destruct Rle_dec; [contradiction|reflexivity]).
      split; [|split; [exact E2|split]]; [unfold I1|unfold I3|unfold I4]; rewrite GF, andb_false_r; apply masked_false.
Qed.
(** outside, the value is 0, for any Li2; above amax, the density is 0 by its definition, too *)
Theorem C121_zero_outside Li2 chieff chip q amax : 0 < q <= 1 -> 0 < amax -> chip <= 0 \/ amax <= chip ->
  prior_chieff_chip Li2 chieff chip q amax = Fin 0
  /\ (amax <= chip -> chi_eff_chi_p_density amax q chieff chip 0).
Proof.
  intros Q A P. split.
  - assert (P' : chip / amax <= 0 \/ 1 <= chip / amax).
    { assert (E : chip / amax * amax = chip) by (field; lra). destruct P as [P|P]; [left|right]; apply (Rmult_le_reg_r amax); lra. }
    unfold prior_chieff_chip. destruct (terms_zero Li2 (chieff / amax) (chip / amax) q Q P') as (-> & -> & -> & ->).
    change (xadd (xadd (xadd (Fin 0) (Fin 0)) (Fin 0)) (Fin 0)) with (Fin (0 + 0 + 0 + 0)). rewrite xdiv_fin by nra. f_equal. field. lra.
  - intros L. exists 0, 0. cbv zeta. set (r2 := chip * (4 + 3 * q) / (q * (3 + 4 * q))).
    assert (R2 : amax <= r2).
    { assert (E : r2 = ratio q * (chip / q)) by (unfold r2, ratio; field; lra). pose proof (ratio_ge_1 q Q).
      assert (chip <= chip / q). { apply (Rmult_le_reg_r q); [lra|]. unfold Rdiv. rewrite Rmult_assoc, Rinv_l by lra. nra. }
      rewrite E. nra. }
    split; [ring|split].
    + apply (newton_integral_ext (fun _ => 0)); [|apply ni_zero]. intros z _. rewrite sd_out; [ring|]. pose proof (pow2_ge_0 ((1 + q) * chieff - q * z)). nra.
    + apply (newton_integral_ext (fun _ => 0)); [|apply ni_zero]. intros z _. rewrite sd_out; [ring|]. pose proof (pow2_ge_0 (((1 + q) * chieff - z) / q)). nra.
Qed.
Print Assumptions C121_zero_outside.
Example C121_zero_outside_nonvacuous Li2 : prior_chieff_chip Li2 0 1 1 1 = Fin 0 /\ chi_eff_chi_p_density 1 1 0 1 0.
Proof. destruct (C121_zero_outside Li2 0 1 1 1) as [A B]; try lra. split; [exact A|apply B; lra]. Qed.

Lemma sd_nonneg A z r : 0 < A -> 0 < r -> 0 <= spin_density A z r.
Proof.
  intros HA HR. unfold spin_density. destruct Rlt_dec; [|lra]. apply Rmult_le_pos; [left; apply Rinv_0_lt_compat; lra|].
  left. apply Rdiv_lt_0_compat; [exact HR|]. pose proof (pow2_ge_0 z). nra.
Qed.
Lemma below_nonneg A z r : 0 < A -> 0 < r -> z <> 0 -> 0 <= spin_density_below A z r.
Proof.
  intros HA HR NZ. destruct (Rlt_dec (z ^ 2) (A ^ 2)) as [L|L]; [|rewrite below_out; lra].
  rewrite below_value by assumption. assert (0 < z ^ 2) by nra. apply Rmult_le_pos; [left; apply Rinv_0_lt_compat; lra|].
  assert (K : z ^ 2 < Rmin (A ^ 2) (z ^ 2 + r ^ 2)) by (apply Rmin_glb_lt; nra).
  pose proof (ln_increasing _ _ H K). lra.
Qed.
Lemma ni_nonneg f a b v : a <= b -> (forall x, x <> 0 -> 0 <= f x) -> newton_integral f a b v -> 0 <= v.
Proof.
  intros AB P (Phi & E & Hc & Hd & ->).
  assert (K : Phi a <= Phi b); [|lra].
  apply (nondecreasing_except (0 :: E) Phi (fun x => if Req_EM_T x 0 then 0 else f x) a b AB Hc).
  - intros x _. destruct (Req_EM_T x 0); [lra|now apply P].
  - intros x Hx Hn. cbn [In] in Hn. destruct (Req_EM_T x 0) as [->|]; [tauto|]. apply Hd; tauto.
Qed.
(** the value is never negative *)
Theorem C121_not_negative Li2 chieff chip q amax : complex_dilogarithm Li2 -> 0 < q <= 1 -> 0 < amax ->
  exists v, prior_chieff_chip Li2 chieff chip q amax = Fin v /\ 0 <= v.
Proof.
  intros L Q A. destruct (Rle_dec chip 0) as [P|P]; [|destruct (Rle_dec amax chip) as [P'|P']].
  - exists 0. split; [|lra]. apply C121_zero_outside; auto.
  - exists 0. split; [|lra]. apply C121_zero_outside; auto.
  - destruct (C121_exact_density Li2 chieff chip q amax L Q A ltac:(lra)) as (v & E & D). exists v. split; [exact E|].
    destruct D as (v1 & v2 & -> & N1 & N2). cbv zeta in *. set (r2 := chip * (4 + 3 * q) / (q * (3 + 4 * q))) in *.
    assert (R2 : 0 < r2) by (apply Rdiv_lt_0_compat; apply Rmult_lt_0_compat; lra).
    assert (AA : - amax <= amax) by lra.
    apply ni_nonneg in N1; [|exact AA|]. apply ni_nonneg in N2; [lra|exact AA|].
    + intros z NZ. apply Rmult_le_pos; [apply below_nonneg; lra|]. apply Rmult_le_pos; [|apply sd_nonneg; lra].
      apply Rmult_le_pos; left; apply Rdiv_lt_0_compat; lra.
    + intros z NZ. apply Rmult_le_pos; [apply below_nonneg; lra|]. apply Rmult_le_pos; [lra|apply sd_nonneg; lra].
Qed.
Print Assumptions C121_not_negative.
Example C121_not_negative_nonvacuous : exists v, prior_chieff_chip Li2c (-1 / 3) (2 / 3) 1 (9 / 10) = Fin v /\ 0 <= v.
Proof. apply C121_not_negative; [exact complex_dilogarithm_exists|lra|lra]. Qed.

Lemma sd_even A z r : spin_density A (- z) r = spin_density A z r.
Proof. unfold spin_density. replace ((- z) ^ 2) with (z ^ 2) by ring. reflexivity. Qed.
Lemma below_even A z r : spin_density_below A (- z) r = spin_density_below A z r.
Proof. unfold spin_density_below. apply RInt_ext. intros x _. apply sd_even. Qed.
(** chi_eff and - chi_eff are equally likely *)
Theorem C121_symmetric Li2 chieff chip q amax : complex_dilogarithm Li2 -> 0 < q <= 1 -> 0 < amax ->
  prior_chieff_chip Li2 (- chieff) chip q amax = prior_chieff_chip Li2 chieff chip q amax.
Proof.
  intros L Q A. destruct (Rle_dec chip 0) as [P|P]; [|destruct (Rle_dec amax chip) as [P'|P']].
  - rewrite !(proj1 (C121_zero_outside Li2 _ chip q amax Q A (or_introl P))). reflexivity.
  - rewrite !(proj1 (C121_zero_outside Li2 _ chip q amax Q A (or_intror P'))). reflexivity.
  - destruct (C121_exact_density Li2 chieff chip q amax L Q A ltac:(lra)) as (v & -> & D).
    destruct (C121_exact_density Li2 (- chieff) chip q amax L Q A ltac:(lra)) as (w & -> & D'). f_equal.
    apply (C121_density_unique amax q (- chieff) chip w v A D'). destruct D as (v1 & v2 & -> & N1 & N2). exists v1, v2. split; [reflexivity|].
    cbv zeta in *. apply newton_integral_mirror in N1. apply newton_integral_mirror in N2. split.
    + revert N1. apply newton_integral_ext. intros z _. rewrite below_even. do 2 f_equal. rewrite <- sd_even. f_equal. ring.
    + revert N2. apply newton_integral_ext. intros z _. rewrite below_even. do 2 f_equal. rewrite <- sd_even. f_equal. field. lra.
Qed.
Print Assumptions C121_symmetric.
Example C121_symmetric_nonvacuous : prior_chieff_chip Li2c (- (1 / 3)) (1 / 4) (1 / 2) 1 = prior_chieff_chip Li2c (1 / 3) (1 / 4) (1 / 2) 1.
Proof. apply C121_symmetric; [exact complex_dilogarithm_exists|lra|lra]. Qed.
