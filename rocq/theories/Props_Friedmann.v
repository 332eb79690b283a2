(** C110: the distances solve the Friedmann equation up to the grid spacing. *)
From Coq Require Import Reals List Lra.
From Coquelicot Require Import Coquelicot.
From Verif Require Import Model_X Model_Cosmology Spec_Cosmology Proofs_Cosmology Proofs_Friedmann.
Open Scope R_scope.

(** matter and radiation are not negative, the universe is flat or open *)
Definition ordinary (Om Or Ol : R) : Prop := 0 <= Om /\ 0 <= Or /\ Om + Or + Ol <= 1.

(** ** C110 *)
Theorem C110_comoving_distance :
  forall c Ho Om Or Ol max_z dz z, 0 < c -> 0 < Ho -> 0 < max_z -> 0 < dz -> ordinary Om Or Ol -> 0 <= z <= max_z ->
  Rabs (z_to_Dc c Ho Om Or Ol max_z dz z - comoving_distance c Ho Om Or Ol z) <= c / Ho * (dz / 2).
Proof.
  intros c Ho Om Or Ol max_z dz z H1 H2 H3 H4 (O1 & O2 & O3) Hz.
  destruct (comoving_close c Ho Om Or Ol max_z dz H1 H2 H3 H4 O1 O2 O3 z Hz) as [A _].
  rewrite (Rmult_comm (c / Ho)). exact A.
Qed.
Print Assumptions C110_comoving_distance.

Theorem C110_luminosity_distance :
  forall c Ho Om Or Ol max_z dz z, 0 < c -> 0 < Ho -> 0 < max_z -> 0 < dz -> ordinary Om Or Ol -> 0 <= z <= max_z ->
  Rabs (z_to_DL c Ho Om Or Ol max_z dz z - luminosity_distance c Ho Om Or Ol z) <= c / Ho * ((1 + z) * dz / 2 + dz ^ 2 / 4).
Proof.
  intros c Ho Om Or Ol max_z dz z H1 H2 H3 H4 (O1 & O2 & O3) Hz.
  destruct (comoving_close c Ho Om Or Ol max_z dz H1 H2 H3 H4 O1 O2 O3 z Hz) as [A B]. unfold luminosity_distance.
  set (D := z_to_Dc c Ho Om Or Ol max_z dz z) in *. set (E := comoving_distance c Ho Om Or Ol z) in *.
  apply Rabs_le_between in A. apply Rabs_le.
  assert ((1 + z) * (D - E) <= (1 + z) * (dz / 2 * (c / Ho))) by (apply Rmult_le_compat_l; lra).
  assert ((1 + z) * - (dz / 2 * (c / Ho)) <= (1 + z) * (D - E)) by (apply Rmult_le_compat_l; lra).
  replace (c / Ho * ((1 + z) * dz / 2 + dz ^ 2 / 4)) with ((1 + z) * (dz / 2 * (c / Ho)) + c / Ho * (dz ^ 2 / 4)) by (field; lra).
  lra.
Qed.
Print Assumptions C110_luminosity_distance.

(** dDLdz is the derivative of the exact distance, up to the same error *)
Theorem C110_distance_derivative :
  forall c Ho Om Or Ol max_z dz z, 0 < c -> 0 < Ho -> 0 < max_z -> 0 < dz -> ordinary Om Or Ol -> 0 < z <= max_z ->
  exists slope, is_derive (luminosity_distance c Ho Om Or Ol) z slope
    /\ Rabs (dDLdz c Ho Om Or Ol max_z dz z - slope) <= c / Ho * (dz / 2).
Proof.
  intros c Ho Om Or Ol max_z dz z H1 H2 H3 H4 (O1 & O2 & O3) Hz.
  eexists. split; [apply luminosity_derive; auto; lra|]. rewrite friedmann. unfold dDLdz.
  replace (_ - _) with (z_to_Dc c Ho Om Or Ol max_z dz z - comoving_distance c Ho Om Or Ol z) by ring.
  apply C110_comoving_distance; auto; [now repeat split|lra].
Qed.
Print Assumptions C110_distance_derivative.

(** dDcdz is the exact slope of the comoving distance, and the expansion rate today is the Hubble constant *)
Theorem C110_expansion_rate : forall c Ho Om Or Ol z,
  dDcdz c Ho Om Or Ol z = c / hubble Ho Om Or Ol z /\ z_to_E Om Or Ol 0 = 1 /\ hubble Ho Om Or Ol z = Ho * z_to_E Om Or Ol z.
Proof.
  intros c Ho Om Or Ol z. split; [symmetry; apply friedmann|]. split.
  - unfold z_to_E, E_squared, OmegaKappa. cbv zeta. transitivity (sqrt 1); [apply (f_equal sqrt); ring|apply sqrt_1].
  - unfold hubble, z_to_E, E_squared, OmegaKappa. cbv zeta. apply (f_equal (fun a => Ho * sqrt a)). ring.
Qed.
Print Assumptions C110_expansion_rate.

(** an empty open universe: the comoving distance is c/Ho ln(1 + z) *)
Example C110_nonvacuous : ordinary (3/10) (1/10000) (6/10) /\ ordinary 0 0 0
  /\ comoving_distance 1 1 0 0 0 1 = ln 2.
Proof.
  split; [unfold ordinary; lra|]. split; [unfold ordinary; lra|].
  unfold comoving_distance. apply is_RInt_unique.
  apply (is_RInt_ext (fun t => / (1 + t))).
  - intros x Hx. rewrite Rmin_left, Rmax_right in Hx by lra. unfold hubble.
    replace (0 * (1 + x) ^ 3 + 0 * (1 + x) ^ 4 + (1 - 0 - 0 - 0) * (1 + x) ^ 2 + 0) with ((1 + x) ^ 2) by ring.
    rewrite sqrt_pow2 by lra. unfold Rdiv. rewrite !Rmult_1_l. reflexivity.
  - replace (ln 2) with (ln (1 + 1) - ln (1 + 0)) by (rewrite Rplus_0_r, ln_1; replace (1 + 1) with 2 by ring; ring).
    apply (is_RInt_derive (fun t => ln (1 + t)) (fun t => / (1 + t))).
    + intros x Hx. rewrite Rmin_left, Rmax_right in Hx by lra. auto_derive; [lra|field; lra].
    + intros x Hx. rewrite Rmin_left, Rmax_right in Hx by lra.
      apply (ex_derive_continuous (V:=R_NormedModule)). auto_derive. lra.
Qed.
