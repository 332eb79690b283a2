(** The tables of the cosmology approximate the distance integral. *)
From Coq Require Import Reals List ZArith Lia Lra Psatz.
From Coquelicot Require Import Coquelicot.
From Verif Require Import Model_X Spec_X Proofs_X Model_Likelihood Model_Cosmology Spec_Cosmology Proofs_Cosmology.
Import ListNotations.
Open Scope R_scope.

Section Quadrature.
Variable f : R -> R.
Hypothesis f_continuous : forall x, 0 <= x -> continuous f x.
Hypothesis f_decreasing : forall x y, 0 <= x -> x <= y -> f y <= f x.
Hypothesis f_positive : forall x, 0 <= x -> 0 <= f x.

Lemma f_integrable a b : 0 <= a -> a <= b -> ex_RInt f a b.
Proof.
  intros Ha Hb. apply (ex_RInt_continuous (V:=R_CompleteNormedModule)). intros z Hz.
  rewrite Rmin_left, Rmax_right in Hz by lra. apply f_continuous. lra.
Qed.
Lemma RInt_between a b : 0 <= a -> a <= b -> (b - a) * f b <= RInt f a b <= (b - a) * f a.
Proof.
  intros Ha Hb.
  assert (C : forall k : R, RInt (fun _ => k) a b = ((b - a) * k)%R) by (intros k; rewrite RInt_const; reflexivity).
  split.
  - rewrite <- C. apply RInt_le; [lra|apply ex_RInt_const|now apply f_integrable|]. intros x Hx. apply f_decreasing; lra.
  - rewrite <- C. apply RInt_le; [lra|now apply f_integrable|apply ex_RInt_const|]. intros x Hx. apply f_decreasing; lra.
Qed.
Lemma RInt_split a b c : 0 <= a -> a <= b -> b <= c -> RInt f a c = RInt f a b + RInt f b c.
Proof.
  intros. symmetry. apply (RInt_Chasles (V:=R_CompleteNormedModule)); apply f_integrable; lra.
Qed.
Fixpoint steps (h : R) (l : list R) : Prop :=
  match l with x :: ((y :: _) as r) => y - x <= h /\ steps h r | _ => True end.
Lemma inc1_last : forall t x0, inc1 (x0 :: t) -> x0 <= last (x0 :: t) 0.
Proof.
  induction t as [|x1 t IH]; intros x0 H; [simpl; lra|]. destruct H as [A B]. specialize (IH x1 B).
  change (last (x0 :: x1 :: t) 0) with (last (x1 :: t) 0). lra.
Qed.
Lemma partial_cell x0 x1 x h : 0 <= x0 -> x0 <= x <= x1 -> x1 - x0 <= h ->
  Rabs ((x - x0) * (f x1 + f x0) / 2 - RInt f x0 x) <= h / 2 * (f x0 - f x1).
Proof.
  intros H0 Hx Hh. destruct (RInt_between x0 x H0 ltac:(lra)) as [A B].
  pose proof (f_decreasing x0 x H0 ltac:(lra)). pose proof (f_decreasing x x1 ltac:(lra) ltac:(lra)).
  assert ((x - x0) * f x1 <= (x - x0) * f x) by (apply Rmult_le_compat_l; lra).
  assert ((x - x0) * (f x0 - f x1) <= h * (f x0 - f x1)) by (apply Rmult_le_compat_r; lra).
  apply Rabs_le. lra.
Qed.
Lemma trapezoid_table h : forall t x0 x1 a x, 0 <= x0 -> inc1 (x0 :: x1 :: t) -> steps h (x0 :: x1 :: t) ->
  x0 <= x <= last (x0 :: x1 :: t) 0 ->
  let xs := x0 :: x1 :: t in
  Rabs (interp_cell x (combine xs (a :: cumtrapz_from a xs (map f xs))) - (a + RInt f x0 x)) <= h / 2 * (f x0 - f (last xs 0)).
Proof.
  induction t as [|x2 t IH]; intros x0 x1 a x H0 I S Hx; cbv zeta.
  - destruct I as [I _]. destruct S as [S _]. cbn in Hx. cbn [map cumtrapz_from combine interp_cell last].
    replace (a + (x - x0) / (x1 - x0) * (a + (x1 - x0) * (f x1 + f x0) / 2 - a) - (a + RInt f x0 x))
      with ((x - x0) * (f x1 + f x0) / 2 - RInt f x0 x) by (field; lra).
    now apply partial_cell.
  - destruct I as [I I']. destruct S as [S S'].
    change (last (x0 :: x1 :: x2 :: t) 0) with (last (x1 :: x2 :: t) 0) in *.
    pose proof (inc1_last (x2 :: t) x1 I') as Hl.
    pose proof (f_decreasing x1 (last (x1 :: x2 :: t) 0) ltac:(lra) Hl) as D1.
    set (a' := a + (x1 - x0) * (f x1 + f x0) / 2).
    change (combine (x0 :: x1 :: x2 :: t) (a :: cumtrapz_from a (x0 :: x1 :: x2 :: t) (map f (x0 :: x1 :: x2 :: t))))
      with ((x0, a) :: combine (x1 :: x2 :: t) (a' :: cumtrapz_from a' (x1 :: x2 :: t) (map f (x1 :: x2 :: t)))).
    set (rest := combine (x1 :: x2 :: t) (a' :: cumtrapz_from a' (x1 :: x2 :: t) (map f (x1 :: x2 :: t)))) in *.
    assert (Er : exists p q, rest = (x1, a') :: p :: q).
    { unfold rest. cbn [map cumtrapz_from combine]. eauto. }
    assert (E : interp_cell x ((x0, a) :: rest)
                = if Rlt_dec x x1 then a + (x - x0) / (x1 - x0) * (a' - a) else interp_cell x rest).
    { destruct Er as (p & q & ->). reflexivity. }
    rewrite E. destruct (Rlt_dec x x1) as [L|L].
    + unfold a'.
      replace (a + (x - x0) / (x1 - x0) * (a + (x1 - x0) * (f x1 + f x0) / 2 - a) - (a + RInt f x0 x))
        with ((x - x0) * (f x1 + f x0) / 2 - RInt f x0 x) by (field; lra).
      pose proof (partial_cell x0 x1 x h H0 ltac:(lra) S).
      assert (h / 2 * (f x0 - f x1) <= h / 2 * (f x0 - f (last (x1 :: x2 :: t) 0))) by (apply Rmult_le_compat_l; lra). lra.
    + specialize (IH x1 x2 a' x ltac:(lra) I' S' ltac:(lra)). cbv zeta in IH. fold rest in IH.
      rewrite (RInt_split x0 x1 x) by lra.
      pose proof (partial_cell x0 x1 x1 h H0 ltac:(lra) S) as P.
      replace (interp_cell x rest - (a + (RInt f x0 x1 + RInt f x1 x)))
        with ((interp_cell x rest - (a' + RInt f x1 x)) + ((x1 - x0) * (f x1 + f x0) / 2 - RInt f x0 x1)) by (unfold a'; ring).
      eapply Rle_trans; [apply Rabs_triang|]. lra.
Qed.

(** the chord of the product with 1 + z *)
Lemma chord x0 x1 a s x : x0 < x1 ->
  a * (1 + x0) + (x - x0) / (x1 - x0) * ((a + (x1 - x0) * s) * (1 + x1) - a * (1 + x0))
  - (1 + x) * (a + (x - x0) / (x1 - x0) * (a + (x1 - x0) * s - a)) = s * ((x - x0) * (x1 - x)).
Proof. intros H. field. lra. Qed.
Lemma chord_bound x0 x1 x s h F : x0 <= x <= x1 -> x1 - x0 <= h -> 0 <= s <= F ->
  0 <= s * ((x - x0) * (x1 - x)) <= F * (h ^ 2 / 4).
Proof.
  intros Hx Hh Hs.
  assert (0 <= (x - x0) * (x1 - x)) by (apply Rmult_le_pos; lra).
  assert (P : (x1 - x0) ^ 2 <= h ^ 2) by (apply pow_incr; lra).
  pose proof (pow2_ge_0 (2 * x - x0 - x1)) as Q.
  assert ((x - x0) * (x1 - x) <= h ^ 2 / 4).
  { replace ((x - x0) * (x1 - x)) with (((x1 - x0) ^ 2 - (2 * x - x0 - x1) ^ 2) / 4) by field. lra. }
  split; [apply Rmult_le_pos; lra|]. apply Rmult_le_compat; lra.
Qed.
Lemma product_table h : forall t x0 x1 a x, 0 <= x0 -> inc1 (x0 :: x1 :: t) -> steps h (x0 :: x1 :: t) ->
  x0 <= x <= last (x0 :: x1 :: t) 0 ->
  let xs := x0 :: x1 :: t in
  let tab := a :: cumtrapz_from a xs (map f xs) in
  0 <= interp_cell x (combine xs (map2 (fun d z => d * (1 + z)) tab xs)) - (1 + x) * interp_cell x (combine xs tab)
    <= f x0 * (h ^ 2 / 4).
Proof.
  induction t as [|x2 t IH]; intros x0 x1 a x H0 I S Hx; cbv zeta.
  - destruct I as [I _]. destruct S as [S _]. cbn in Hx. cbn [map map2 cumtrapz_from combine interp_cell].
    replace ((x1 - x0) * (f x1 + f x0) / 2) with ((x1 - x0) * ((f x1 + f x0) / 2)) by field.
    rewrite chord by lra.
    pose proof (f_decreasing x0 x1 H0 ltac:(lra)). pose proof (f_positive x1 ltac:(lra)). apply chord_bound; lra.
  - destruct I as [I I']. destruct S as [S S'].
    change (last (x0 :: x1 :: x2 :: t) 0) with (last (x1 :: x2 :: t) 0) in *.
    set (a' := a + (x1 - x0) * (f x1 + f x0) / 2).
    set (tab' := a' :: cumtrapz_from a' (x1 :: x2 :: t) (map f (x1 :: x2 :: t))).
    change (a :: cumtrapz_from a (x0 :: x1 :: x2 :: t) (map f (x0 :: x1 :: x2 :: t))) with (a :: tab').
    change (combine (x0 :: x1 :: x2 :: t) (a :: tab')) with ((x0, a) :: combine (x1 :: x2 :: t) tab').
    change (combine (x0 :: x1 :: x2 :: t) (map2 (fun d z => d * (1 + z)) (a :: tab') (x0 :: x1 :: x2 :: t)))
      with ((x0, a * (1 + x0)) :: combine (x1 :: x2 :: t) (map2 (fun d z => d * (1 + z)) tab' (x1 :: x2 :: t))).
    specialize (IH x1 x2 a' x ltac:(lra) I' S'). cbv zeta in IH. fold tab' in IH.
    set (r1 := combine (x1 :: x2 :: t) tab') in *.
    set (r2 := combine (x1 :: x2 :: t) (map2 (fun d z => d * (1 + z)) tab' (x1 :: x2 :: t))) in *.
    assert (E1 : exists p q, r1 = (x1, a') :: p :: q) by (unfold r1, tab'; cbn [map cumtrapz_from combine]; eauto).
    assert (E2 : exists p q, r2 = (x1, a' * (1 + x1)) :: p :: q) by (unfold r2, tab'; cbn [map map2 cumtrapz_from combine]; eauto).
    assert (F1 : interp_cell x ((x0, a) :: r1) = if Rlt_dec x x1 then a + (x - x0) / (x1 - x0) * (a' - a) else interp_cell x r1)
      by (destruct E1 as (p & q & ->); reflexivity).
    assert (F2 : interp_cell x ((x0, a * (1 + x0)) :: r2)
       = if Rlt_dec x x1 then a * (1 + x0) + (x - x0) / (x1 - x0) * (a' * (1 + x1) - a * (1 + x0)) else interp_cell x r2)
      by (destruct E2 as (p & q & ->); reflexivity).
    rewrite F1, F2. pose proof (f_decreasing x0 x1 H0 ltac:(lra)). pose proof (f_positive x1 ltac:(lra)).
    destruct (Rlt_dec x x1) as [L|L].
    + unfold a'. replace ((x1 - x0) * (f x1 + f x0) / 2) with ((x1 - x0) * ((f x1 + f x0) / 2)) by field.
      rewrite chord by lra. apply chord_bound; lra.
    + specialize (IH ltac:(lra)). assert (0 <= h ^ 2 / 4) by (pose proof (pow2_ge_0 h); lra).
      assert (f x1 * (h ^ 2 / 4) <= f x0 * (h ^ 2 / 4)) by (apply Rmult_le_compat_r; lra). lra.
Qed.
End Quadrature.

Lemma steps_map_seq step n : forall i, steps step (map (fun i => INR i * step) (seq i n)).
Proof.
  induction n as [|n IH]; intros i; [exact I|]. destruct n as [|n]; [exact I|]. split; [|exact (IH (S i))]. rewrite S_INR. lra.
Qed.

Section Friedmann.
Variables c Ho Om Or Ol max_z dz : R.
Hypothesis Hc : 0 < c.
Hypothesis HHo : 0 < Ho.
Hypothesis Hmax : 0 < max_z.
Hypothesis Hdz : 0 < dz.
Hypothesis HOm : 0 <= Om.
Hypothesis HOr : 0 <= Or.
Hypothesis Hsum : Om + Or + Ol <= 1.
Lemma E_one z : 0 <= z -> 1 <= E_squared Om Or Ol z.
Proof.
  intros Hz. unfold E_squared, OmegaKappa. cbv zeta.
  assert (A : 1 <= (1 + z) ^ 2) by (apply pow_R1_Rle; lra). assert (B : 1 <= (1 + z) ^ 3) by (apply pow_R1_Rle; lra).
  assert (C : 1 <= (1 + z) ^ 4) by (apply pow_R1_Rle; lra). nra.
Qed.
Lemma E_increasing x y : 0 <= x -> x <= y -> E_squared Om Or Ol x <= E_squared Om Or Ol y.
Proof.
  intros Hx Hxy. unfold E_squared, OmegaKappa. cbv zeta.
  assert (A : (1 + x) ^ 2 <= (1 + y) ^ 2) by (apply pow_incr; lra). assert (B : (1 + x) ^ 3 <= (1 + y) ^ 3) by (apply pow_incr; lra).
  assert (C : (1 + x) ^ 4 <= (1 + y) ^ 4) by (apply pow_incr; lra).
  assert ((1 - (Om + Or + Ol)) * (1 + x) ^ 2 <= (1 - (Om + Or + Ol)) * (1 + y) ^ 2) by (apply Rmult_le_compat_l; lra).
  assert (Om * (1 + x) ^ 3 <= Om * (1 + y) ^ 3) by (apply Rmult_le_compat_l; lra).
  assert (Or * (1 + x) ^ 4 <= Or * (1 + y) ^ 4) by (apply Rmult_le_compat_l; lra). lra.
Qed.
Notation f := (dDcdz c Ho Om Or Ol).
Lemma friedmann z : c / hubble Ho Om Or Ol z = f z.
Proof.
  unfold hubble, dDcdz, z_to_E, E_squared, OmegaKappa. cbv zeta.
  replace (Om * (1 + z) ^ 3 + Or * (1 + z) ^ 4 + (1 - Om - Or - Ol) * (1 + z) ^ 2 + Ol)
    with (Ol + (1 - (Om + Or + Ol)) * (1 + z) ^ 2 + Om * (1 + z) ^ 3 + Or * (1 + z) ^ 4) by ring.
  unfold Rdiv. rewrite Rinv_mult. ring.
Qed.
Lemma f_cont z : 0 <= z -> continuous f z.
Proof.
  intros Hz. apply (ex_derive_continuous (V:=R_NormedModule)). unfold dDcdz, z_to_E.
  pose proof (E_one z Hz) as E. assert (Q : 0 < sqrt (E_squared Om Or Ol z)) by (apply sqrt_lt_R0; lra).
  unfold E_squared in *. cbv zeta in *. auto_derive. cbn [pow] in *.
  split; [lra|]. split; [|exact I]. 
  match goal with |- sqrt ?a <> 0 => match type of Q with 0 < sqrt ?b => replace a with b by ring end end. lra.
Qed.
Lemma f_le_at_zero z : 0 <= z -> 0 < f z <= c / Ho.
Proof.
  intros Hz. pose proof (E_one z Hz) as E. pose proof (Rdiv_lt_0_compat c Ho Hc HHo) as Q.
  assert (S : 1 <= sqrt (E_squared Om Or Ol z)) by (rewrite <- sqrt_1; apply sqrt_le_1; lra).
  unfold dDcdz, z_to_E. split; [apply Rdiv_lt_0_compat; lra|].
  apply (Rmult_le_reg_r (sqrt (E_squared Om Or Ol z))); [lra|]. unfold Rdiv at 1. rewrite Rmult_assoc, Rinv_l by lra.
  rewrite Rmult_1_r. rewrite <- (Rmult_1_r (c / Ho)) at 1. apply Rmult_le_compat_l; lra.
Qed.
Lemma f_decr x y : 0 <= x -> x <= y -> f y <= f x.
Proof.
  intros Hx Hxy. pose proof (E_increasing x y Hx Hxy) as M. pose proof (E_one x Hx).
  pose proof (Rdiv_lt_0_compat c Ho Hc HHo) as Q. unfold dDcdz, z_to_E.
  apply Rmult_le_compat_l; [lra|]. apply Rinv_le_contravar; [apply sqrt_lt_R0; lra|apply sqrt_le_1; lra].
Qed.
Lemma comoving_is z : comoving_distance c Ho Om Or Ol z = RInt f 0 z.
Proof. unfold comoving_distance. apply RInt_ext. intros x _. apply friedmann. Qed.
Lemma expanding_here z : 0 <= z -> 0 < E_squared Om Or Ol z.
Proof. intros H. pose proof (E_one z H). lra. Qed.
Lemma grid_shape : exists x1 t, grid_z max_z dz = 0 :: x1 :: t /\ inc1 (0 :: x1 :: t) /\ steps dz (0 :: x1 :: t)
  /\ max_z <= last (0 :: x1 :: t) 0.
Proof.
  destruct (grid_size max_z dz Hmax Hdz) as (n & E & B & _).
  exists (INR 1 * dz), (map (fun i => INR i * dz) (seq 2 n)).
  assert (E' : map (fun i => INR i * dz) (seq 0 (S (S n))) = 0 :: INR 1 * dz :: map (fun i => INR i * dz) (seq 2 n)).
  { cbn [seq map]. f_equal. cbn [INR]. ring. }
  rewrite <- E'. split; [exact E|]. split; [now apply inc1_map_seq|]. split; [apply steps_map_seq|].
  rewrite last_map_seq. exact B.
Qed.
Lemma comoving_close z : 0 <= z <= max_z ->
  Rabs (z_to_Dc c Ho Om Or Ol max_z dz z - comoving_distance c Ho Om Or Ol z) <= dz / 2 * (c / Ho)
  /\ 0 <= z_to_DL c Ho Om Or Ol max_z dz z - (1 + z) * z_to_Dc c Ho Om Or Ol max_z dz z <= c / Ho * (dz ^ 2 / 4).
Proof.
  intros Hz. destruct grid_shape as (x1 & t & E & I & S & B).
  destruct (grid_facts max_z dz Hmax Hdz) as (_ & _ & G2 & G3 & _).
  destruct (DLs_length c Ho Om Or Ol max_z dz Hmax Hdz) as [L1 L2].
  destruct (DLs_inc c Ho Om Or Ol max_z dz Hc HHo Hmax Hdz expanding_here) as [I1 I2].
  assert (Hl : hd 0 (grid_z max_z dz) <= z <= last (grid_z max_z dz) 0) by (rewrite G3, E; lra).
  destruct (f_le_at_zero 0 ltac:(lra)) as [F1 F2]. destruct (f_le_at_zero (last (0 :: x1 :: t) 0) ltac:(lra)) as [F3 _].
  unfold z_to_Dc, z_to_DL. rewrite (proj1 (interp_inside _ _ L1 G2 I1 z Hl)), (proj1 (interp_inside _ _ L2 G2 I2 z Hl)).
  unfold grid_DL, grid_Dc, cumulative_trapezoid. rewrite E, comoving_is. split.
  - pose proof (trapezoid_table f f_cont f_decr dz t 0 x1 0 z ltac:(lra) I S ltac:(lra)) as T. cbv zeta in T.
    rewrite Rplus_0_l in T. eapply Rle_trans; [exact T|]. apply Rmult_le_compat_l; lra.
  - pose proof (product_table f f_decr (fun x Hx => Rlt_le _ _ (proj1 (f_le_at_zero x Hx))) dz t 0 x1 0 z ltac:(lra) I S ltac:(lra)) as T.
    cbv zeta in T. split; [apply T|]. eapply Rle_trans; [apply T|]. apply Rmult_le_compat_r; [|exact F2].
    pose proof (pow2_ge_0 dz). lra.
Qed.
Lemma luminosity_derive z : 0 < z ->
  is_derive (luminosity_distance c Ho Om Or Ol) z (comoving_distance c Ho Om Or Ol z + (1 + z) * (c / hubble Ho Om Or Ol z)).
Proof.
  intros Hz. assert (D : is_derive (comoving_distance c Ho Om Or Ol) z (c / hubble Ho Om Or Ol z)).
  { rewrite friedmann. apply is_derive_ext with (f := fun z => RInt f 0 z); [intros; symmetry; apply comoving_is|].
    apply (is_derive_RInt f (fun z => RInt f 0 z) 0 z); [|apply f_cont; lra].
    assert (Hz2 : 0 < z) by lra. exists (mkposreal z Hz2). intros y Hy.
    apply (RInt_correct (V:=R_CompleteNormedModule)). apply f_integrable; [exact f_cont|lra|].
    change (Rabs (y - z) < z) in Hy. apply Rabs_def2 in Hy. lra. }
  unfold luminosity_distance.
  replace (comoving_distance c Ho Om Or Ol z + (1 + z) * (c / hubble Ho Om Or Ol z))
    with (1 * comoving_distance c Ho Om Or Ol z + (1 + z) * (c / hubble Ho Om Or Ol z)) by ring.
  apply (is_derive_mult (fun z => 1 + z) (comoving_distance c Ho Om Or Ol) z 1 (c / hubble Ho Om Or Ol z)); [|exact D|intros; apply Rmult_comm].
  auto_derive; [exact I|ring].
Qed.
End Friedmann.
