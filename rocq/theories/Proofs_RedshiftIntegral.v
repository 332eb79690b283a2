(** The normaliser and the samples of the redshift distributions against the integral of the density. *)
From Coq Require Import Reals Lra Lia List Bool.
From Coquelicot Require Import Coquelicot.
From Verif Require Import Model_X Spec_X Proofs_X Proofs_Transform Spec_Density Model_Powerlaw Proofs_Powerlaw Model_Cosmology Proofs_Cosmology.
From Verif Require Import Model_Mass Proofs_Mass Proofs_MassGrid Model_Redshift Proofs_Redshift Proofs_Trapezoid.
Import ListNotations.
Open Scope R_scope.

Lemma Rpower_continuous : forall k z, 0 < z -> continuous (fun z => Rpower z k) z.
Proof.
  intros k z H. apply (ex_derive_continuous (fun z => Rpower z k)). unfold Rpower. auto_derive. exact H.
Qed.

Lemma quotient_error : forall u t m w V W N Z, 0 <= u <= 1 -> 0 < Z -> 0 < N -> V / N = u ->
  Rabs (V - W) <= w * t -> Rabs (N - Z) <= w * m -> Rabs (W / Z - u) <= w * (t + u * m) / Z.
Proof.
  intros u t m w V W N Z Hu HZ HN E H1 H2.
  assert (EV : V = u * N) by (rewrite <- E; field; lra). rewrite EV in H1.
  replace (W / Z - u) with ((W - u * Z) / Z) by (field; lra).
  unfold Rdiv. rewrite Rabs_mult, (Rabs_pos_eq (/ Z)) by (left; now apply Rinv_0_lt_compat).
  apply Rmult_le_compat_r; [left; now apply Rinv_0_lt_compat|].
  replace (W - u * Z) with (- (u * N - W) + u * (N - Z)) by ring.
  eapply Rle_trans; [apply Rabs_triang|]. rewrite Rabs_Ropp, Rabs_mult, (Rabs_pos_eq u) by lra.
  assert (u * Rabs (N - Z) <= u * (w * m)) by (apply Rmult_le_compat_l; lra). lra.
Qed.

Lemma ten_thousand_steps : INR (10000 - 1) = 9999.
Proof. rewrite INR_IZR_INZ. apply f_equal. vm_compute. reflexivity. Qed.

Section RedInt.
Variables c Ho Om Or Ol max_z dz : R.
Hypothesis Hc : 0 < c.
Hypothesis HHo : 0 < Ho.
Hypothesis Hz : 0 < max_z.
Hypothesis Hdz : 0 < dz.
Hypothesis HE : forall z, 0 <= z -> 0 < E_squared Om Or Ol z.
Variable psi : R -> X.
Hypothesis Hpsi : forall z, 0 <= z -> exists r, psi z = Fin r.
Variable f : R -> R.
Hypothesis Hf : forall z, 0 <= z -> wexp (psi z) = f z.
Hypothesis Cf : forall z, 0 <= z -> continuous f z.
Variable z_max : R.
Hypothesis Hm : 0 < z_max.
Notation ls := (log_spacetime c Ho Om Or Ol max_z dz psi).
Notation Dc := (z_to_Dc c Ho Om Or Ol max_z dz).
Notation g := (fun z => wexp (ls z)).

Lemma dDcdz_continuous : forall z, 0 <= z -> continuous (dDcdz c Ho Om Or Ol) z.
Proof.
  intros z H. pose proof (HE z H) as P. apply (ex_derive_continuous (dDcdz c Ho Om Or Ol)).
  unfold dDcdz, z_to_E. unfold E_squared, OmegaKappa in *. auto_derive.
  split; [exact P|]. split; [|exact I]. apply Rgt_not_eq, sqrt_lt_R0. exact P.
Qed.
Lemma Dc_continuous : forall z, continuous Dc z.
Proof.
  intros z. destruct (grid_facts max_z dz Hz Hdz) as (_ & _ & C & _ & _).
  destruct (DLs_length c Ho Om Or Ol max_z dz Hz Hdz) as [L _].
  destruct (DLs_inc c Ho Om Or Ol max_z dz Hc HHo Hz Hdz HE) as [I _].
  exact (interp_continuous _ _ L C I z).
Qed.
Definition shape (z : R) : R := 4 * PI / 10 ^ 9 * (Dc z * Dc z) * dDcdz c Ho Om Or Ol z * / (1 + z) * f z.
Lemma density_shape : forall z, 0 <= z -> g z = shape z.
Proof.
  intros z [H|<-].
  { destruct (ls_value c Ho Om Or Ol max_z dz Hc HHo Hz Hdz HE psi Hpsi z H) as (r & E & V).
    rewrite E. cbn [wexp]. rewrite V, Hf by lra. unfold shape. ring. }
  rewrite ls_zero by assumption. cbn [wexp]. unfold shape.
  destruct (z_to_Dc_facts c Ho Om Or Ol max_z dz Hc HHo Hz Hdz HE) as (_ & _ & ->). ring.
Qed.
Lemma shape_continuous : forall z, 0 <= z -> continuous shape z.
Proof.
  intros z H. unfold shape.
  apply (continuous_mult (fun z => 4 * PI / 10 ^ 9 * (Dc z * Dc z) * dDcdz c Ho Om Or Ol z * / (1 + z)) f); [|now apply Cf].
  apply (continuous_mult (fun z => 4 * PI / 10 ^ 9 * (Dc z * Dc z) * dDcdz c Ho Om Or Ol z) (fun z => / (1 + z))).
  { apply (continuous_mult (fun z => 4 * PI / 10 ^ 9 * (Dc z * Dc z)) (dDcdz c Ho Om Or Ol)); [|now apply dDcdz_continuous].
    apply (continuous_mult (fun _ => 4 * PI / 10 ^ 9) (fun z => Dc z * Dc z)); [apply continuous_const|].
    apply (continuous_mult Dc Dc); apply Dc_continuous. }
  apply (ex_derive_continuous (fun z => / (1 + z))). auto_derive. lra.
Qed.
Lemma density_integrable : forall a b, 0 <= a -> a <= b -> ex_RInt g a b.
Proof.
  intros a b Ha Hab. apply ex_RInt_ext with shape.
  { intros x Hx. rewrite Rmin_left in Hx by lra. rewrite Rmax_right in Hx by lra. symmetry. apply density_shape. lra. }
  apply (ex_RInt_continuous (V := R_CompleteNormedModule)). intros x Hx. rewrite Rmin_left in Hx by lra. apply shape_continuous. lra.
Qed.
Lemma density_total : 0 < RInt g 0 z_max.
Proof.
  rewrite (RInt_ext g shape).
  { apply RInt_gt_0; [exact Hm| |].
    { intros x Hx. rewrite <- density_shape by lra. apply (ls_pos c Ho Om Or Ol max_z dz Hc HHo Hz Hdz HE psi Hpsi). lra. }
    intros x Hx. apply continuity_pt_filterlim. apply continuity_pt_filterlim. apply shape_continuous. lra. }
  intros x Hx. rewrite Rmin_left in Hx by lra. apply density_shape. lra.
Qed.

Section Modulus.
Variables (n : nat) (w : R).
Hypothesis Hn : (2 <= n)%nat.
Hypothesis Hw : forall x y, 0 <= x <= z_max -> 0 <= y <= z_max -> Rabs (x - y) <= z_max / INR (n - 1) -> Rabs (g x - g y) <= w.
Lemma modulus_from_0 : forall x y, 0 <= x <= z_max -> 0 <= y <= z_max -> Rabs (x - y) <= (z_max - 0) / INR (n - 1) -> Rabs (g x - g y) <= w.
Proof. intros x y. rewrite Rminus_0_r. apply Hw. Qed.
Lemma normaliser_error : Rabs (trapezoid (linspace 0 z_max n) (map g (linspace 0 z_max n)) - RInt g 0 z_max) <= w * z_max.
Proof.
  pose proof (grid_total g 0 z_max w n Hm Hn modulus_from_0 (density_integrable 0 z_max ltac:(lra) ltac:(lra))) as G.
  rewrite Rminus_0_r in G. exact G.
Qed.
Lemma table_error : forall t, 0 <= t <= z_max ->
  Rabs (interp_cell t (combine (linspace 0 z_max n) (cumulative_trapezoid (linspace 0 z_max n) (map g (linspace 0 z_max n)))) - RInt g 0 t) <= w * t.
Proof.
  intros t Ht. pose proof (grid_cumulative g 0 z_max w n Hm Hn modulus_from_0 (density_integrable 0 z_max ltac:(lra) ltac:(lra)) t Ht) as G.
  rewrite Rminus_0_r in G. exact G.
Qed.
End Modulus.

Notation grid := (linspace 0 z_max 10000).
Notation cdf := (redshift_cdf c Ho Om Or Ol max_z dz psi z_max).
Notation sample := (redshift_sample c Ho Om Or Ol max_z dz psi z_max).
Lemma cumtrapz_scale : forall xs ys N a, cumtrapz_from (a / N) xs (map (fun p => p / N) ys) = map (fun p => p / N) (cumtrapz_from a xs ys).
Proof.
  induction xs as [|x [|x' t] IH]; intros [|y [|y' u]] N a; try reflexivity.
  change (cumtrapz_from (a / N) (x :: x' :: t) (map (fun p => p / N) (y :: y' :: u)))
    with ((a / N + (x' - x) * (y' / N + y / N) / 2) :: cumtrapz_from (a / N + (x' - x) * (y' / N + y / N) / 2) (x' :: t) (map (fun p => p / N) (y' :: u))).
  change (cumtrapz_from a (x :: x' :: t) (y :: y' :: u))
    with ((a + (x' - x) * (y' + y) / 2) :: cumtrapz_from (a + (x' - x) * (y' + y) / 2) (x' :: t) (y' :: u)).
  replace (a / N + (x' - x) * (y' / N + y / N) / 2) with ((a + (x' - x) * (y' + y) / 2) / N) by (unfold Rdiv; ring).
  cbn [map]. f_equal. apply (IH (y' :: u)).
Qed.
Lemma table_scaled : forall xs (h : R -> R), 0 < trapezoid xs (map h xs) ->
  let norm := trapezoid xs (map h xs) in
  let table := cumulative_trapezoid xs (map (fun p => p / norm) (map h xs)) in
  map (fun x => x / last table 0) table = map (fun p => p / norm) (cumulative_trapezoid xs (map h xs)).
Proof.
  intros xs h P N table.
  assert (E : table = map (fun p => p / N) (cumulative_trapezoid xs (map h xs))).
  { unfold table, cumulative_trapezoid. cbn [map]. pose proof (cumtrapz_scale xs (map h xs) N 0) as S0.
    replace (0 / N) with 0 in * by (unfold Rdiv; ring). now rewrite S0. }
  assert (L : last table 0 = 1).
  { unfold table, cumulative_trapezoid. rewrite cum_last by now rewrite !map_length.
    rewrite map_map. rewrite (trapezoid_ext _ (fun z => h z / N) (fun z => / N * h z)) by (intros; unfold Rdiv; ring).
    rewrite trapezoid_scale. fold N in P |- *. field. lra. }
  rewrite L, E, map_map. apply map_ext. intros. fold N in P. field. lra.
Qed.
Lemma cdf_table : cdf = map (fun p => p / trapezoid grid (map g grid)) (cumulative_trapezoid grid (map g grid)).
Proof.
  rewrite <- (table_scaled grid g); [reflexivity|].
  exact (grid_Z_pos c Ho Om Or Ol max_z dz Hc HHo Hz Hdz HE psi Hpsi z_max Hm 10000 ten_thousand).
Qed.
Lemma sample_error : forall w u, 0 <= u <= 1 ->
  (forall x y, 0 <= x <= z_max -> 0 <= y <= z_max -> Rabs (x - y) <= z_max / INR (10000 - 1) -> Rabs (g x - g y) <= w) ->
  Rabs (RInt g 0 (sample u) / RInt g 0 z_max - u) <= w * (sample u + u * z_max) / RInt g 0 z_max.
Proof.
  intros w u Hu Hw. pose proof density_total as T.
  destruct (sample_ok c Ho Om Or Ol max_z dz Hc HHo Hz Hdz HE psi Hpsi z_max Hm u Hu) as [B E].
  set (t := sample u) in *.
  pose proof (table_error 10000 w ten_thousand Hw t B) as TE. pose proof (normaliser_error 10000 w ten_thousand Hw) as NE.
  pose proof (grid_Z_pos c Ho Om Or Ol max_z dz Hc HHo Hz Hdz HE psi Hpsi z_max Hm 10000 ten_thousand) as P.
  destruct (cdf_facts c Ho Om Or Ol max_z dz Hc HHo Hz Hdz HE psi Hpsi z_max Hm) as (L & I & _ & _).
  destruct (interp_inside grid cdf L) with (x := t) as (E' & _ & _).
  { rewrite linspace_length. exact ten_thousand. } { exact I. }
  { rewrite linspace_hd by exact ten_thousand1. rewrite linspace_last by exact ten_thousand. exact B. }
  rewrite E' in E. clear E'. rewrite cdf_table, interp_cell_scale in E.
  set (N := trapezoid grid (map g grid)) in *. set (V := interp_cell t _) in *. set (Z := RInt g 0 z_max) in *.
  set (W := RInt g 0 t) in *.
  exact (quotient_error u t z_max w V W N Z Hu T P E TE NE).
Qed.
Lemma log_norm_error : forall w,
  (forall x y, 0 <= x <= z_max -> 0 <= y <= z_max -> Rabs (x - y) <= z_max / 2499 -> Rabs (g x - g y) <= w) ->
  Rabs (wexp (redshift_log_norm c Ho Om Or Ol max_z dz psi z_max) - RInt g 0 z_max) <= w * z_max.
Proof.
  intros w Hw.
  assert (E : INR (2500 - 1) = 2499) by (rewrite INR_IZR_INZ; reflexivity).
  pose proof (normaliser_error 2500 w ltac:(lia)) as NE. rewrite E in NE. specialize (NE Hw).
  pose proof (grid_Z_pos c Ho Om Or Ol max_z dz Hc HHo Hz Hdz HE psi Hpsi z_max Hm 2500 ltac:(lia)) as P.
  unfold redshift_log_norm. cbv zeta. change (map (fun z => wval (ls z)) (linspace 0 z_max 2500)) with (map g (linspace 0 z_max 2500)).
  rewrite xln_pos by exact P. cbn [wexp]. rewrite exp_ln by exact P. exact NE.
Qed.
End RedInt.
