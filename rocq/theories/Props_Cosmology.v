(** C61-C63: cosmological distances. *)
From Coq Require Import Reals Lra Lia List ZArith.
From Verif Require Import Model_X Spec_X Proofs_X Model_Likelihood Model_Joint Model_Transform Spec_Transform Model_Cosmology
  Proofs_Transform Proofs_Cosmology.
Import ListNotations.
Open Scope R_scope.

(** the cosmologies considered: the expansion rate is positive at every redshift >= 0 *)
Definition expanding (Om Or Ol : R) : Prop := forall z, 0 <= z -> 0 < E_squared Om Or Ol z.

(** in particular flat universes without negative densities *)
Lemma flat_expanding : forall Om Or Ol, 0 <= Om -> 0 <= Or -> 0 <= Ol -> Om + Or + Ol = 1 -> expanding Om Or Ol.
Proof.
  intros Om Or Ol H1 H2 H3 H z Hz. unfold E_squared, OmegaKappa. rewrite H.
  assert (A : 1 <= (1 + z) ^ 3) by (apply pow_R1_Rle; lra). assert (B : 1 <= (1 + z) ^ 4) by (apply pow_R1_Rle; lra).
  nra.
Qed.

(** ** C61 *)
Section C61.
Variables c Ho Om Or Ol max_z dz : R.
Let DL := z_to_DL c Ho Om Or Ol max_z dz.
Let DL' := DL_to_z c Ho Om Or Ol max_z dz.

Theorem C61_redshift_recovered :
  0 < c -> 0 < Ho -> 0 < max_z -> 0 < dz -> expanding Om Or Ol ->
  forall z, 0 <= z <= max_z -> DL' (DL z) = z.
Proof.
  intros H1 H2 H3 H4 H5 z Hz. apply z_round_trip; auto.
  destruct (grid_facts max_z dz H3 H4) as (_ & _ & _ & _ & B). lra.
Qed.
Theorem C61_distance_recovered :
  0 < c -> 0 < Ho -> 0 < max_z -> 0 < dz -> expanding Om Or Ol ->
  forall d, 0 <= d <= DL max_z -> DL (DL' d) = d.
Proof.
  intros H1 H2 H3 H4 H5 d Hd. apply d_round_trip; auto.
  destruct (grid_facts max_z dz H3 H4) as (_ & _ & _ & _ & B).
  destruct (z_round_trip c Ho Om Or Ol max_z dz H1 H2 H3 H4 H5 max_z ltac:(lra)) as [_ E]. unfold DL in Hd. lra.
Qed.
Theorem C61_distance_increasing :
  0 < c -> 0 < Ho -> 0 < max_z -> 0 < dz -> expanding Om Or Ol ->
  DL 0 = 0 /\ forall x y, 0 <= x -> x < y -> y <= max_z -> DL x < DL y.
Proof.
  intros H1 H2 H3 H4 H5. destruct (grid_facts max_z dz H3 H4) as (_ & _ & _ & _ & B). split.
  - pose proof (clamped_d c Ho Om Or Ol max_z dz H1 H2 H3 H4 H5) as [K _].
    destruct (z_round_trip c Ho Om Or Ol max_z dz H1 H2 H3 H4 H5 0 ltac:(lra)) as [E [E1 E2]].
    destruct (Rle_lt_or_eq_dec _ _ E1) as [L|L]; [|symmetry; exact L]. exfalso.
    (* otherwise half that distance would lie below z = 0 *)
    destruct (d_round_trip c Ho Om Or Ol max_z dz H1 H2 H3 H4 H5 (z_to_DL c Ho Om Or Ol max_z dz 0 / 2) ltac:(lra)) as [F [F1 F2]].
    set (w := DL_to_z c Ho Om Or Ol max_z dz (z_to_DL c Ho Om Or Ol max_z dz 0 / 2)) in *.
    destruct (Rle_lt_or_eq_dec _ _ F1) as [G|G].
    + pose proof (z_to_DL_strict c Ho Om Or Ol max_z dz H1 H2 H3 H4 H5 0 w ltac:(lra) G F2). lra.
    + rewrite <- G in F. lra.
  - intros x y Hx Hxy Hy. apply z_to_DL_strict; auto. lra.
Qed.
(** beyond the grid the distance no longer grows, so redshifts are not recovered there *)
Theorem C61_beyond_the_grid :
  0 < c -> 0 < Ho -> 0 < max_z -> 0 < dz -> expanding Om Or Ol ->
  forall z, max_z + dz <= z -> DL z = DL (max_z + dz) /\ DL' (DL z) < z.
Proof.
  intros H1 H2 H3 H4 H5 z Hz. destruct (grid_facts max_z dz H3 H4) as (_ & _ & _ & _ & B).
  destruct (clamped c Ho Om Or Ol max_z dz H1 H2 H3 H4 H5) as [_ C].
  pose proof (C z ltac:(lra)) as E. unfold DL. split; [rewrite E; symmetry; apply C; lra|].
  unfold DL'. rewrite E.
  destruct (z_round_trip c Ho Om Or Ol max_z dz H1 H2 H3 H4 H5 (last (grid_z max_z dz) 0) ltac:(lra)) as [F _]. rewrite F. lra.
Qed.
End C61.
Print Assumptions C61_redshift_recovered.
Print Assumptions C61_distance_recovered.
Print Assumptions C61_distance_increasing.
Print Assumptions C61_beyond_the_grid.

(** Planck-like numbers: the default cosmology's densities, flat *)
Example C61_nonvacuous : expanding (3/10) (1/10000) (1 - 3/10 - 1/10000) /\ 0 < 4 /\ 0 < 1/1000.
Proof. split; [apply flat_expanding; lra|lra]. Qed.

(** ** C62 *)
(** what the transform reports is the derivative of (1 + z) Dc(z), for an exact comoving distance *)
Theorem C62_exact_distance_partial :
  forall (Dc dDc : R -> R) inv z,
  derivable_pt_lim Dc z (dDc z) -> 0 < Dc z + (1 + z) * dDc z ->
  true_jacobian1 (z_to_DL_transform (lift (fun z => (1 + z) * Dc z)) inv (lift Dc) (lift dDc)) z.
Proof.
  intros Dc dDc inv z HD Hp. exists (fun z => (1 + z) * Dc z), 1, (Dc z + (1 + z) * dDc z). split; [lra|]. split; [reflexivity|].
  split; [|split; [lra|]].
  - replace (Dc z + (1 + z) * dDc z) with ((0 + 1) * Dc z + (1 + z) * dDc z) by ring.
    apply (derivable_pt_lim_mult (fun z => 1 + z) Dc); [|exact HD].
    apply derivable_pt_lim_plus; [apply derivable_pt_lim_const|apply derivable_pt_lim_id].
  - cbn [t_ladj z_to_DL_transform at_ nth lift xadd xmul]. rewrite xln_fin by lra. now rewrite Rabs_pos_eq by lra.
Qed.
Print Assumptions C62_exact_distance_partial.

(** the distance actually returned is a linear interpolation, with another slope *)
Theorem C62_interpolated_distance_refuted :
  exists c Ho Om Or Ol max_z dz z,
  expanding Om Or Ol /\ 0 < c /\ 0 < Ho /\ 0 < dz /\ 0 < z < max_z
  /\ ~ true_jacobian1 (z_to_DL_transform (lift (z_to_DL c Ho Om Or Ol max_z dz)) (lift (DL_to_z c Ho Om Or Ol max_z dz))
         (lift (z_to_Dc c Ho Om Or Ol max_z dz)) (lift (dDcdz c Ho Om Or Ol))) z.
Proof.
  exists 1, 1, 0, 0, 1, 1, 1, (1/4). split; [apply flat_expanding; lra|]. do 4 (split; [lra|]).
  assert (Gz : grid_z 1 1 = [0; 1]).
  { unfold grid_z, arange0. replace (ceil ((1 + 1) / 1)) with 2%Z.
    - change (Z.to_nat 2) with 2%nat. cbn. rewrite Rmult_0_l, Rmult_1_l. reflexivity.
    - pose proof (ceil_ge ((1 + 1) / 1)) as [A B]. replace ((1 + 1) / 1) with 2 in * by field.
      apply le_IZR in A. assert (IZR (ceil 2) < IZR 3) as B' by (replace (IZR 3) with (2 + 1) by (simpl; lra); exact B). apply lt_IZR in B'. lia. }
  assert (Gd : forall z, dDcdz 1 1 0 0 1 z = 1).
  { intros z. unfold dDcdz, z_to_E, E_squared, OmegaKappa. replace (_ + _) with 1 by ring. rewrite sqrt_1. field. }
  assert (GDc : grid_Dc 1 1 0 0 1 1 1 = [0; 1]).
  { unfold grid_Dc. rewrite Gz. cbn [map]. rewrite !Gd. unfold cumulative_trapezoid. cbn. replace (0 + (1 - 0) * (1 + 1) / 2) with 1 by field. reflexivity. }
  assert (GDL : grid_DL 1 1 0 0 1 1 1 = [0; 2]).
  { unfold grid_DL. rewrite GDc, Gz. cbn. rewrite Rmult_0_l, Rmult_1_l. replace (1 + 1) with 2 by ring. reflexivity. }
  assert (D : forall z, 0 <= z <= 1 -> z_to_DL 1 1 0 0 1 1 1 z = 2 * z).
  { intros z Hz. unfold z_to_DL, interp. rewrite Gz, GDL. cbn. destruct (Rlt_dec z 0); [lra|]. destruct (Rlt_dec 1 z); [lra|]. field. }
  assert (C : z_to_Dc 1 1 0 0 1 1 1 (1/4) = 1/4).
  { unfold z_to_Dc, interp. rewrite Gz, GDc. cbn. destruct (Rlt_dec (1/4) 0); [lra|]. destruct (Rlt_dec 1 (1/4)); [lra|]. field. }
  intros (f & eps & d & Heps & Hf & Hd & Hn & Hl).
  cbn [t_ladj z_to_DL_transform at_ nth lift xadd xmul] in Hl. rewrite C, Gd in Hl. rewrite xln_fin in Hl by lra.
  injection Hl as Hl. assert (Hln : Rabs d = 3/2).
  { apply ln_inv; [now apply Rabs_pos_lt|lra|]. rewrite <- Hl. f_equal. lra. }
  assert (d = 2); [|subst d; rewrite Rabs_pos_eq in Hln by lra; lra].
  apply (uniqueness_limite f (1/4)); [exact Hd|].
  (* f is 2z near 1/4 *)
  intros e He. assert (Hm : 0 < Rmin eps (1/8)) by (apply Rmin_pos; lra).
  exists (mkposreal _ Hm). intros h Hh Hs. cbn in Hs.
  assert (S1 : Rabs h < eps) by (eapply Rlt_le_trans; [exact Hs|apply Rmin_l]).
  assert (S2 : Rabs h < 1/8) by (eapply Rlt_le_trans; [exact Hs|apply Rmin_r]).
  apply Rabs_def2 in S2.
  assert (V : forall x, Rabs (x - 1/4) < eps -> 0 <= x <= 1 -> f x = 2 * x).
  { intros x Hx Hr. specialize (Hf x Hx). cbn in Hf. injection Hf as <-. now apply D. }
  rewrite (V (1/4 + h)) by (try lra; replace (1/4 + h - 1/4) with h by ring; exact S1).
  rewrite (V (1/4)) by (try lra; replace (1/4 - 1/4) with 0 by ring; rewrite Rabs_R0; exact Heps).
  replace ((2 * (1/4 + h) - 2 * (1/4)) / h - 2) with 0 by (field; exact Hh). now rewrite Rabs_R0.
Qed.
Print Assumptions C62_interpolated_distance_refuted.

Example C62_nonvacuous : true_jacobian1 (z_to_DL_transform (lift (fun z => (1 + z) * z)) (lift (fun d => d)) (lift (fun z => z)) (lift (fun _ => 1))) 1.
Proof. apply (C62_exact_distance_partial (fun z => z) (fun _ => 1)); [apply derivable_pt_lim_id|lra]. Qed.

(** ** C63 *)
Theorem C63_volume_element :
  forall c Ho Om Or Ol max_z dz z,
  0 < c -> 0 < Ho -> 0 < max_z -> 0 < dz -> expanding Om Or Ol -> 0 <= z ->
  let D := z_to_Dc c Ho Om Or Ol max_z dz z in
  dVcdz c Ho Om Or Ol z D = Fin (4 * PI / 10 ^ 9 * D ^ 2 * (c / Ho / sqrt (E_squared Om Or Ol z)))
  /\ 0 <= D /\ (D = 0 <-> z = 0).
Proof.
  intros c Ho Om Or Ol max_z dz z H1 H2 H3 H4 H5 Hz D.
  destruct (z_to_Dc_facts c Ho Om Or Ol max_z dz H1 H2 H3 H4 H5) as (M & P & Z).
  destruct (Rle_lt_or_eq_dec _ _ Hz) as [L|<-].
  - pose proof (P z L) as PD. fold D in PD. split; [apply (dVcdz_value c Ho Om Or Ol); auto|]. split; [lra|]. lra.
  - unfold D. rewrite Z. split; [|lra]. rewrite (dVcdz_origin c Ho Om Or Ol) by (auto; lra). f_equal. ring.
Qed.
Print Assumptions C63_volume_element.

(** the tabulated comoving volume starts at zero and never decreases *)
Theorem C63_volume_table_nondecreasing :
  forall c Ho Om Or Ol max_z dz,
  0 < c -> 0 < Ho -> 0 < max_z -> 0 < dz -> expanding Om Or Ol ->
  hd 1 (grid_Vc c Ho Om Or Ol max_z dz) = 0
  /\ forall i, (S i < length (grid_Vc c Ho Om Or Ol max_z dz))%nat ->
     nth i (grid_Vc c Ho Om Or Ol max_z dz) 0 <= nth (S i) (grid_Vc c Ho Om Or Ol max_z dz) 0.
Proof.
  intros c Ho Om Or Ol max_z dz H1 H2 H3 H4 H5. split; [reflexivity|].
  destruct (grid_facts max_z dz H3 H4) as (A & _ & _ & _ & _). unfold grid_Vc, cumulative_trapezoid.
  assert (N : forall zs ds, Forall (fun v => 0 <= v) (map2 (fun z d => fin_part (dVcdz c Ho Om Or Ol z d)) zs ds)).
  { induction zs as [|z zs IH]; intros [|d ds]; constructor; auto. unfold dVcdz.
    destruct (logdVcdz c Ho Om Or Ol z d); cbn; try lra. left. apply exp_pos. }
  specialize (N (grid_z max_z dz) (grid_Dc c Ho Om Or Ol max_z dz)).
  assert (G : forall zs ys a i, inc1 zs -> Forall (fun v => 0 <= v) ys -> (S i < length (a :: cumtrapz_from a zs ys))%nat ->
            nth i (a :: cumtrapz_from a zs ys) 0 <= nth (S i) (a :: cumtrapz_from a zs ys) 0).
  { clear. induction zs as [|x0 [|x1 xs] IH]; intros [|y0 [|y1 ys]] a i A N Hi; cbn in Hi; try lia.
    destruct A as [Hlt A]. inversion N as [|? ? N1 N2]; subst. inversion N2 as [|? ? N3 N4]; subst.
    change (cumtrapz_from a (x0 :: x1 :: xs) (y0 :: y1 :: ys)) with
      ((a + (x1 - x0) * (y1 + y0) / 2) :: cumtrapz_from (a + (x1 - x0) * (y1 + y0) / 2) (x1 :: xs) (y1 :: ys)).
    destruct i as [|i].
    - cbn [nth]. assert (0 <= (x1 - x0) * (y1 + y0)) by (apply Rmult_le_pos; lra). lra.
    - apply (IH (y1 :: ys) (a + (x1 - x0) * (y1 + y0) / 2) i A N2). cbn [length]. change (S i < S (length (cumtrapz_from (a + (x1 - x0) * (y1 + y0) / 2) (x1 :: xs) (y1 :: ys))))%nat.
      cbn in Hi |- *. lia. }
  intros i Hi. now apply G.
Qed.
Print Assumptions C63_volume_table_nondecreasing.

Example C63_nonvacuous : expanding 0 0 1 /\ (1 < length (grid_Vc 1 1 0 0 1 1 1))%nat.
Proof.
  split; [apply flat_expanding; lra|]. unfold grid_Vc, cumulative_trapezoid. cbn [length].
  destruct (DLs_length 1 1 0 0 1 1 1 ltac:(lra) ltac:(lra)) as [L _].
  destruct (grid_facts 1 1 ltac:(lra) ltac:(lra)) as (_ & _ & N & _ & _).
  rewrite cumtrapz_length by (rewrite map2_length; auto). lia.
Qed.
