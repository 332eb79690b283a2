(** Properties of the distance tables in floating-point arithmetic. *)
From Coq Require Import Reals List ZArith Lia Lra Permutation.
From Flocq Require Import Core.
From Coquelicot Require Import Coquelicot.
From Verif Require Import Model_Rounding Spec_Rounding Proofs_Rounding Model_RoundedDistance Spec_RoundedDistance Proofs_RoundedDistance.
Import ListNotations.
Open Scope R_scope.

(** The distance per redshift is never off by more than eleven roundings. *)
Theorem C138_per_redshift :
  forall (emin prec : Z) (ratio Om Or Ol Ok z : R),
  (0 < prec)%Z -> (emin <= - prec - 1)%Z ->
  let u := unit_roundoff prec in
  let f := per_redshift ratio Om Or Ol Ok in
  u <= / 100 -> densities emin prec Om Or Ol Ok -> 0 < ratio ->
  is_float emin prec z -> 0 <= z -> 2 * smallest_normal emin prec <= f z ->
  Rabs (fl_dDcdz emin prec ratio Om Or Ol Ok z - f z) <= roundings u 11 * f z.
Proof.
  intros emin prec ratio Om Or Ol Ok z Hp Hone u f Hu (Cm & Cr & Cl & Ck & Hs) Hr Fz Hz Hf.
  apply near_relative; [exact (@u01 prec Hp)| |].
  { replace (INR 11) with 11 by (simpl; ring). fold u. lra. }
  now apply (@dDcdz_near emin prec Hp Hu Hone ratio Om Or Ol Ok).
Qed.
Print Assumptions C138_per_redshift.

(** The table: every entry of _Dc is within 15 roundings and the longest chain of additions of
    the exact sum of trapezoids up to its redshift. *)
Theorem C138_table :
  forall (emin prec : Z) (ratio Om Or Ol Ok lo hi : R) (zs : list R) (order : list R -> tree) (h i : nat),
  (0 < prec)%Z -> (emin <= - prec - 1)%Z ->
  let u := unit_roundoff prec in
  let f := per_redshift ratio Om Or Ol Ok in
  densities emin prec Om Or Ol Ok -> 0 < ratio ->
  redshifts emin prec lo hi zs -> resolved emin prec lo (f (last zs 0)) ->
  adds_up order -> chains order (length zs) h -> INR (17 + h) * u <= / 9 ->
  (i < length zs)%nat ->
  let exact := sum_of (map (fun j => (nth (S j) zs 0 - nth j zs 0) * (f (nth (S j) zs 0) + f (nth j zs 0)) / 2) (seq 0 i)) in
  length (fl_Dc emin prec ratio Om Or Ol Ok order zs) = length zs /\
  Rabs (nth i (fl_Dc emin prec ratio Om Or Ol Ok order zs) 0 - exact) <= roundings u (15 + h) * exact.
Proof.
  intros emin prec ratio Om Or Ol Ok lo hi zs order h i Hp Hone u f (Cm & Cr & Cl & Ck & Hs) Hr Hz ((Hlo & Hlo1) & Hroom) Ho Hc Hk Hi exact.
  pose proof (@table_rows emin prec Hp Hone ratio Om Or Ol Ok Cm Cr Cl Ck Hs Hr lo hi zs Hz Hlo Hlo1 Hroom order h Ho Hc Hk) as T.
  assert (L : length zs = length (table ratio Om Or Ol Ok zs)) by (eapply table_length; eassumption).
  assert (L2 : length (table ratio Om Or Ol Ok zs) = length (fl_Dc emin prec ratio Om Or Ol Ok order zs)) by (clear -T; induction T; cbn [length]; lia).
  split; [congruence|].
  assert (E : nth i (table ratio Om Or Ol Ok zs) 0 = exact).
  { unfold exact. clear -Hi. fold f. unfold table. fold f. destruct i as [|i]; [reflexivity|]. cbn [nth].
    rewrite cumtrapz_sums.
    assert (Li : (i < length (areas f zs))%nat) by (rewrite areas_length; lia).
    rewrite (nth_indep _ 0 (0 + sum_of (firstn 0 (areas f zs)))) by (rewrite map_length, seq_length; exact Li).
    rewrite (map_nth (fun k => 0 + sum_of (firstn k (areas f zs)))), seq_nth, Rplus_0_l by exact Li. f_equal.
    change (1 + i)%nat with (S i). revert Hi. generalize (S i). clear. intros n. revert n.
    induction zs as [|x0 [|x1 r] IH]; intros [|n] Hn; cbn [length] in Hn; try lia; try reflexivity.
    change (areas f (x0 :: x1 :: r)) with ((x1 - x0) * (f x1 + f x0) / 2 :: areas f (x1 :: r)).
    cbn [firstn seq map nth]. f_equal. rewrite <- seq_shift, map_map. rewrite (IH n) by (cbn [length]; lia). apply map_ext. intros j. reflexivity. }
  rewrite <- E. clear -T Hi L. revert i Hi. rewrite L. clear L. induction T as [|t g ts gs (A & B & C) T IH]; intros i Hi; cbn [length] in Hi; [lia|].
  destruct i as [|i]; [exact C|]. cbn [nth]. apply IH. lia.
Qed.
Print Assumptions C138_table.

(** Comoving distance: the error is that of the trapezoids and that of the roundings. *)
Theorem C138_comoving :
  forall (emin prec : Z) (ratio Om Or Ol Ok lo hi : R) (zs : list R) (order : list R -> tree) (h : nat) (z : R),
  (0 < prec)%Z -> (emin <= - prec - 1)%Z ->
  let u := unit_roundoff prec in
  let f := per_redshift ratio Om Or Ol Ok in
  densities emin prec Om Or Ol Ok -> 0 < ratio ->
  redshifts emin prec lo hi zs -> resolved emin prec lo (f (last zs 0)) ->
  adds_up order -> chains order (length zs) h -> INR (17 + h) * u <= / 9 ->
  is_float emin prec z -> 0 <= z <= last zs 0 ->
  Rabs (fl_z_to_Dc emin prec ratio Om Or Ol Ok order zs z - comoving ratio Om Or Ol Ok z)
    <= hi / 2 * f 0 + interp_error u (bpow radix2 emin) (roundings u (15 + h)) (f 0 * last zs 0).
Proof.
  intros emin prec ratio Om Or Ol Ok lo hi zs order h z Hp Hone u f (Cm & Cr & Cl & Ck & Hs) Hr Hz ((Hlo & Hlo1) & Hroom) Ho Hc Hk Fz Bz.
  exact (@comoving_rounded emin prec Hp Hone ratio Om Or Ol Ok Cm Cr Cl Ck Hs Hr lo hi zs Hz Hlo Hlo1 Hroom order h Ho Hc Hk z Fz Bz).
Qed.
Print Assumptions C138_comoving.

(** Luminosity distance: the same with two roundings more, and the chord of a product. *)
Theorem C138_luminosity :
  forall (emin prec : Z) (ratio Om Or Ol Ok lo hi : R) (zs : list R) (order : list R -> tree) (h : nat) (z : R),
  (0 < prec)%Z -> (emin <= - prec - 1)%Z ->
  let u := unit_roundoff prec in
  let f := per_redshift ratio Om Or Ol Ok in
  densities emin prec Om Or Ol Ok -> 0 < ratio ->
  redshifts emin prec lo hi zs -> resolved emin prec lo (f (last zs 0)) ->
  adds_up order -> chains order (length zs) h -> INR (17 + h) * u <= / 9 ->
  is_float emin prec z -> 0 <= z <= last zs 0 ->
  Rabs (fl_z_to_DL emin prec ratio Om Or Ol Ok order zs z - luminosity ratio Om Or Ol Ok z)
    <= (1 + z) * (hi / 2 * f 0) + hi ^ 2 / 4 * f 0
       + interp_error u (bpow radix2 emin) (roundings u (17 + h)) (f 0 * last zs 0 * (1 + last zs 0)).
Proof.
  intros emin prec ratio Om Or Ol Ok lo hi zs order h z Hp Hone u f (Cm & Cr & Cl & Ck & Hs) Hr Hz ((Hlo & Hlo1) & Hroom) Ho Hc Hk Fz Bz.
  exact (@luminosity_rounded emin prec Hp Hone ratio Om Or Ol Ok Cm Cr Cl Ck Hs Hr lo hi zs Hz Hlo Hlo1 Hroom order h Ho Hc Hk z Fz Bz).
Qed.
Print Assumptions C138_luminosity.

Lemma single_u : unit_roundoff 24 = / 16777216.
Proof. unfold unit_roundoff. simpl. lra. Qed.
Lemma single_tiny : 0 < bpow radix2 (-149) <= / 1000000000000.
Proof. split; [apply bpow_gt_0|]. apply Rle_trans with (bpow radix2 (-40)); [apply bpow_le; lia|]. simpl. lra. Qed.
Lemma single_normal : 0 < smallest_normal (-149) 24 <= / 1000000000000.
Proof. unfold smallest_normal. split; [apply bpow_gt_0|]. apply Rle_trans with (bpow radix2 (-40)); [apply bpow_le; lia|]. simpl. lra. Qed.
Lemma roundings_single : forall k : nat, INR k <= 4200 -> 0 <= roundings (/ 16777216) k <= INR k * (1 + / 3900) / 16777216.
Proof.
  intros k Hk. pose proof (pos_INR k) as P. unfold roundings, of_relative. set (x := INR k) in *.
  set (p := x * / 16777216). assert (Hp : 0 <= p <= 4200 / 16777216) by (unfold p; lra).
  split; [apply Rmult_le_pos; [lra|left; apply Rinv_0_lt_compat; lra]|].
  apply Rle_trans with (p * (1 + / 3900)); [|unfold p; lra].
  unfold Rdiv. apply Rmult_le_compat_l; [lra|]. apply (Rmult_le_reg_r (1 - p)); [lra|]. rewrite Rinv_l by lra. lra.
Qed.
Lemma interp_single : forall k M B, INR k <= 4200 -> 0 <= M <= B -> B <= 100000 ->
  interp_error (/ 16777216) (bpow radix2 (-149)) (roundings (/ 16777216) k) M <= (INR k * (1 + / 3900) + 10) / 16777216 * B + / 1000000.
Proof.
  intros k M B Hk HM HB. pose proof (roundings_single k Hk) as E. pose proof single_tiny as T. pose proof (pos_INR k) as P.
  unfold interp_error. set (e := roundings _ _) in *. set (t := bpow _ _) in *. set (x := INR k) in *.
  assert ((e + 10 * / 16777216) * M <= (x * (1 + / 3900) + 10) / 16777216 * B) by (apply Rmult_le_compat; lra).
  assert (t * (1 + M) <= / 1000000000000 * 100001) by (apply Rmult_le_compat; lra). lra.
Qed.

Section Single.
Variables ratio Om Or Ol Ok : R.
Notation f := (per_redshift ratio Om Or Ol Ok).
Hypothesis D : densities (-149) 24 Om Or Ol Ok.
Hypothesis Hs : 999 / 1000 <= Om + Or + Ol + Ok <= 2.
Hypothesis Hr : 1 <= ratio <= 4454.
Lemma density_sign : 0 <= Om /\ 0 <= Or /\ 0 <= Ol /\ 0 <= Ok.
Proof.
  pose proof single_normal as N. destruct D as ([_ A] & [_ B] & [_ C] & [_ E] & _). repeat split; lra.
Qed.
Lemma single_f0 : 0 <= f 0 <= 4457.
Proof.
  unfold per_redshift. replace (hubble_squared Om Or Ol Ok 0) with (Om + Or + Ol + Ok) by (unfold hubble_squared; ring).
  assert (S1 : 9994 / 10000 <= sqrt (Om + Or + Ol + Ok)).
  { rewrite <- (sqrt_square (9994 / 10000)) by lra. apply sqrt_le_1_alt. lra. }
  split; [apply Rmult_le_pos; [lra|left; apply Rinv_0_lt_compat; lra]|].
  apply (Rmult_le_reg_r (sqrt (Om + Or + Ol + Ok))); [lra|]. unfold Rdiv. rewrite Rmult_assoc, Rinv_l by lra. lra.
Qed.
Lemma single_last : forall z, 0 <= z <= 4002 / 1000 -> / 40 <= f z.
Proof.
  intros z Hz. destruct density_sign as (A & B & C & E). pose proof (h2_pos (-149) 24 Om Or Ol Ok) as P.
  assert (Q : hubble_squared Om Or Ol Ok z <= 2 * 630).
  { unfold hubble_squared. assert (P2 : 1 <= (1 + z) ^ 2 <= 26) by (split; simpl; nra).
    assert (P3 : 1 <= (1 + z) ^ 3 <= 126).
    { replace ((1 + z) ^ 3) with ((1 + z) * (1 + z) ^ 2) by ring. set (p := (1 + z) ^ 2) in *. assert (p <= 5.002 * 5.002) by (unfold p; simpl; nra). split; nra. }
    assert (P4 : 1 <= (1 + z) ^ 4 <= 630).
    { replace ((1 + z) ^ 4) with ((1 + z) ^ 2 * (1 + z) ^ 2) by ring. set (p := (1 + z) ^ 2) in *. assert (p <= 5.002 * 5.002) by (unfold p; simpl; nra). split; nra. }
    assert (Ok * (1 + z) ^ 2 <= Ok * 630) by (apply Rmult_le_compat_l; lra).
    assert (Om * (1 + z) ^ 3 <= Om * 630) by (apply Rmult_le_compat_l; lra).
    assert (Or * (1 + z) ^ 4 <= Or * 630) by (apply Rmult_le_compat_l; lra). lra. }
  assert (Q0 : 0 < hubble_squared Om Or Ol Ok z).
  { unfold hubble_squared. assert (1 <= (1 + z) ^ 2) by (simpl; nra). assert (1 <= (1 + z) ^ 3) by (apply pow_R1_Rle; lra). assert (1 <= (1 + z) ^ 4) by (apply pow_R1_Rle; lra).
    assert (Ok * 1 <= Ok * (1 + z) ^ 2) by (apply Rmult_le_compat_l; lra).
    assert (Om * 1 <= Om * (1 + z) ^ 3) by (apply Rmult_le_compat_l; lra).
    assert (Or * 1 <= Or * (1 + z) ^ 4) by (apply Rmult_le_compat_l; lra). lra. }
  unfold per_redshift. assert (S0 : 0 < sqrt (hubble_squared Om Or Ol Ok z)) by now apply sqrt_lt_R0.
  assert (S1 : sqrt (hubble_squared Om Or Ol Ok z) <= 40).
  { rewrite <- (sqrt_square 40) by lra. apply sqrt_le_1_alt. lra. }
  apply (Rmult_le_reg_r (sqrt (hubble_squared Om Or Ol Ok z))); [exact S0|]. unfold Rdiv. rewrite Rmult_assoc, Rinv_l by lra. lra.
Qed.
End Single.

(** Single precision and the default table of 4.001 / 0.001 redshifts: both distances are right
    to a part in a thousand of the size of the table, for any order of summation.  With chains
    of [h] additions the roundings contribute h / 900 and h / 180 Mpc. *)
Theorem C138_single :
  forall (ratio Om Or Ol Ok : R) (zs : list R) (order : list R -> tree) (h : nat) (z : R),
  densities (-149) 24 Om Or Ol Ok -> 999 / 1000 <= Om + Or + Ol + Ok <= 2 -> 1 <= ratio <= 4454 ->
  redshifts (-149) 24 (/ 2000) (101 / 100000) zs -> last zs 0 <= 4002 / 1000 ->
  adds_up order -> chains order (length zs) h -> INR h <= 4096 ->
  is_float (-149) 24 z -> 0 <= z <= last zs 0 ->
  Rabs (fl_z_to_Dc (-149) 24 ratio Om Or Ol Ok order zs z - comoving ratio Om Or Ol Ok z)
    <= 23 / 10 + (INR h + 26) / 900 /\
  Rabs (fl_z_to_DL (-149) 24 ratio Om Or Ol Ok order zs z - luminosity ratio Om Or Ol Ok z)
    <= (1 + z) * (23 / 10) + (INR h + 28) / 180.
Proof.
  intros ratio Om Or Ol Ok zs order h z Hd Hs Hr Hz Hl Ho Hc Hh Fz Bz.
  pose proof (single_f0 ratio Om Or Ol Ok Hs Hr) as F0.
  pose proof (single_last ratio Om Or Ol Ok Hd Hs Hr (last zs 0) ltac:(lra)) as FL.
  pose proof single_normal as SN. pose proof (pos_INR h) as Ph.
  assert (K15 : INR (15 + h) = 15 + INR h) by (rewrite plus_INR; simpl; ring).
  assert (K17 : INR (17 + h) = 17 + INR h) by (rewrite plus_INR; simpl; ring).
  assert (Rs : resolved (-149) 24 (/ 2000) (per_redshift ratio Om Or Ol Ok (last zs 0))).
  { split; [|lra]. split; [|lra]. apply Rle_trans with (2 * bpow radix2 (-40)); [apply Rmult_le_compat_l; [lra|apply bpow_le; lia]|]. simpl. lra. }
  assert (Sm : INR (17 + h) * unit_roundoff 24 <= / 9) by (rewrite single_u, K17; lra).
  pose proof (C138_comoving (-149) 24 ratio Om Or Ol Ok _ _ zs order h z ltac:(lia) ltac:(lia) Hd ltac:(lra) Hz Rs Ho Hc Sm Fz Bz) as A.
  pose proof (C138_luminosity (-149) 24 ratio Om Or Ol Ok _ _ zs order h z ltac:(lia) ltac:(lia) Hd ltac:(lra) Hz Rs Ho Hc Sm Fz Bz) as B.
  cbv zeta in A, B. rewrite single_u in A, B.
  set (f0 := per_redshift ratio Om Or Ol Ok 0) in *. set (l := last zs 0) in *.
  assert (M1 : 0 <= f0 * l <= 17837).
  { split; [apply Rmult_le_pos; lra|]. apply Rle_trans with (4457 * (4002 / 1000)); [apply Rmult_le_compat; lra|lra]. }
  assert (M2 : 0 <= f0 * l * (1 + l) <= 89221).
  { split; [apply Rmult_le_pos; lra|]. apply Rle_trans with (17837 * (5002 / 1000)); [apply Rmult_le_compat; lra|lra]. }
  pose proof (interp_single (15 + h) _ _ ltac:(rewrite K15; lra) M1 ltac:(lra)) as I1.
  pose proof (interp_single (17 + h) _ _ ltac:(rewrite K17; lra) M2 ltac:(lra)) as I2.
  rewrite K15 in I1. rewrite K17 in I2. split; [lra|].
  assert (X : (1 + z) * (101 / 100000 / 2 * f0) <= (1 + z) * (2251 / 1000)) by (apply Rmult_le_compat_l; lra).
  assert (Y : (101 / 100000) ^ 2 / 4 * f0 <= / 800) by (simpl; lra).
  rewrite Rmult_plus_distr_r. lra.
Qed.
Print Assumptions C138_single.

(** The hypotheses can be met: 4096 redshifts 1/1024 apart, added one after the other. *)
Definition left_to_right (l : list R) : tree := fold_left (fun t x => Node t (Leaf x)) l (Leaf 0).
Lemma left_to_right_leaves : forall l t, leaves (fold_left (fun t x => Node t (Leaf x)) l t) = leaves t ++ l.
Proof.
  induction l as [|a l IH]; intros t; cbn [fold_left]; [now rewrite app_nil_r|]. rewrite IH. cbn [leaves]. now rewrite <- app_assoc.
Qed.
Lemma left_to_right_depth : forall l t, depth (fold_left (fun t x => Node t (Leaf x)) l t) = (depth t + length l)%nat.
Proof.
  induction l as [|a l IH]; intros t; cbn [fold_left length]; [lia|]. rewrite IH. cbn [depth]. lia.
Qed.
Definition grid (n : nat) : list R := map (fun i => INR i / 1024) (seq 0 n).
Lemma small_float : forall m e : Z, (Z.abs m < 2 ^ 24)%Z -> (-149 <= e)%Z -> is_float (-149) 24 (IZR m * bpow radix2 e).
Proof.
  intros m e Hm He. apply generic_format_FLT. exists (Float radix2 m e); [reflexivity|exact Hm|exact He].
Qed.
Lemma grid_steps : forall n a, apart (/ 2000) (101 / 100000) (map (fun i => INR i / 1024) (seq a n)).
Proof.
  induction n as [|n IH]; intros a; [exact I|]. destruct n as [|n]; [exact I|].
  specialize (IH (S a)). cbn [seq map apart] in *. split; [|exact IH]. rewrite S_INR. lra.
Qed.
Lemma grid_last : forall n a, last (map (fun i => INR i / 1024) (seq a (S n))) 0 = INR (a + n) / 1024.
Proof.
  induction n as [|n IH]; intros a; [cbn; now rewrite Nat.add_0_r|].
  specialize (IH (S a)). replace (a + S n)%nat with (S a + n)%nat by lia. rewrite <- IH. reflexivity.
Qed.
Example C138_nonvacuous :
  densities (-149) 24 (5 / 16) 0 (11 / 16) 0 /\
  redshifts (-149) 24 (/ 2000) (101 / 100000) (grid 4096) /\
  last (grid 4096) 0 = 4095 / 1024 /\
  adds_up left_to_right /\ chains left_to_right (length (grid 4096)) 4096.
Proof.
  assert (Sm : forall m e x, x = IZR m * bpow radix2 e -> (Z.abs m < 2 ^ 24)%Z -> (-149 <= e)%Z -> is_float (-149) 24 x).
  { intros m e x -> A B. now apply small_float. }
  pose proof single_normal as SN.
  assert (Z0 : coefficient (-149) 24 0) by (split; [apply float_0|now left]).
  assert (L : length (grid 4096) = 4096%nat) by (unfold grid; now rewrite map_length, seq_length).
  split; [|split; [|split; [|split]]].
  { split; [split|split; [exact Z0|split; [split|split; [exact Z0|lra]]]].
    { apply (Sm 5%Z (-4)%Z); [simpl; lra|reflexivity|lia]. } { right. lra. }
    { apply (Sm 11%Z (-4)%Z); [simpl; lra|reflexivity|lia]. } { right. lra. } }
  { split; [rewrite L; lia|]. split; [cbn; lra|]. split; [apply grid_steps|].
    apply Forall_forall. intros x Hx. apply in_map_iff in Hx. destruct Hx as (i & <- & Hi). apply in_seq in Hi.
    apply (Sm (Z.of_nat i) (-10)%Z); [rewrite <- INR_IZR_INZ; simpl; lra| |lia]. rewrite Z.abs_eq by lia. change (2 ^ 24)%Z with 16777216%Z. lia. }
  { unfold grid. change 4096%nat with (S 4095). rewrite grid_last, INR_IZR_INZ. f_equal. }
  { intros l. exists 1%nat. unfold left_to_right. rewrite left_to_right_leaves. cbn [leaves repeat]. apply Permutation_app_comm. }
  { intros l Hl. unfold left_to_right. rewrite left_to_right_depth. cbn [depth]. lia. }
Qed.
