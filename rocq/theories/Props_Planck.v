(** C148: the Planck cosmologies of the package, and distances in flat universes to second order in the grid step. *)
From Coq Require Import Reals Lra Lia List ZArith.
From Coquelicot Require Import Coquelicot.
From Verif Require Import Model_X Model_Cosmology Spec_Cosmology Proofs_Cosmology Proofs_Friedmann Props_Cosmology Model_Planck Proofs_Planck.
Open Scope R_scope.

(** flat, matter and dark energy only: the error of the comoving distance falls with the square of the grid step *)
Theorem C148_comoving : forall c Ho Om max_z dz z,
  0 < c -> 0 < Ho -> 0 < max_z -> 0 < dz -> 0 <= Om <= 1 -> 0 <= z <= max_z ->
  Rabs (z_to_Dc c Ho Om 0 (1 - Om) max_z dz z - comoving_distance c Ho Om 0 (1 - Om) z) <= c / Ho * dz ^ 2 * ((5 * z + 3) / 16).
Proof. intros. now apply comoving_second. Qed.
Print Assumptions C148_comoving.

(** and so does that of the luminosity distance *)
Theorem C148_luminosity : forall c Ho Om max_z dz z,
  0 < c -> 0 < Ho -> 0 < max_z -> 0 < dz -> 0 <= Om <= 1 -> 0 <= z <= max_z ->
  Rabs (z_to_DL c Ho Om 0 (1 - Om) max_z dz z - luminosity_distance c Ho Om 0 (1 - Om) z)
    <= c / Ho * dz ^ 2 * ((1 + z) * (5 * z + 3) / 16 + 1 / 4).
Proof.
  intros c Ho Om max_z dz z H1 H2 H3 H4 HO Hz.
  pose proof (comoving_second c Ho Om max_z dz z H1 H2 H3 H4 HO Hz) as A.
  destruct (comoving_close c Ho Om 0 (1 - Om) max_z dz H1 H2 H3 H4 (proj1 HO) (Rle_refl 0) ltac:(lra) z Hz) as [_ B].
  unfold luminosity_distance.
  set (D := z_to_Dc c Ho Om 0 (1 - Om) max_z dz z) in *. set (E := comoving_distance c Ho Om 0 (1 - Om) z) in *.
  apply Rabs_le_between in A. apply Rabs_le. set (e := c / Ho * dz ^ 2 * ((5 * z + 3) / 16)) in *.
  assert ((1 + z) * (D - E) <= (1 + z) * e) by (apply Rmult_le_compat_l; lra).
  assert ((1 + z) * - e <= (1 + z) * (D - E)) by (apply Rmult_le_compat_l; lra).
  replace (c / Ho * dz ^ 2 * ((1 + z) * (5 * z + 3) / 16 + 1 / 4)) with ((1 + z) * e + c / Ho * (dz ^ 2 / 4)) by (unfold e; field; lra).
  lra.
Qed.
Print Assumptions C148_luminosity.

Example C148_comoving_nonvacuous : 0 <= 3 / 10 <= 1 /\ 0 < comoving_distance 1 1 (3 / 10) 0 (1 - 3 / 10) 1.
Proof.
  split; [lra|]. rewrite comoving_is.
  pose proof (RInt_between (dDcdz 1 1 (3 / 10) 0 (1 - 3 / 10))
    (f_cont 1 1 (3 / 10) 0 (1 - 3 / 10) ltac:(lra) ltac:(lra) ltac:(lra))
    (f_decr 1 1 (3 / 10) 0 (1 - 3 / 10) ltac:(lra) ltac:(lra) ltac:(lra) ltac:(lra) ltac:(lra)) 0 1 ltac:(lra) ltac:(lra)) as [A _].
  pose proof (f_le_at_zero 1 1 (3 / 10) 0 (1 - 3 / 10) ltac:(lra) ltac:(lra) ltac:(lra) ltac:(lra) ltac:(lra) 1 ltac:(lra)). lra.
Qed.

(** the two cosmologies have the Hubble constant and matter density of the Planck papers, are flat and have no radiation:
    for redshifts up to 4 their distances in Mpc are those of the Friedmann equation to 7 and 36 kpc *)
Theorem C148_planck_2015 : forall z, 0 <= z <= 4 ->
  Rabs (Dc_of PLANCK_2015_Cosmology z - comoving_distance 299792458 67740 (3089 / 10000) 0 (6911 / 10000) z) <= 7 / 1000
  /\ Rabs (DL_of PLANCK_2015_Cosmology z - luminosity_distance 299792458 67740 (3089 / 10000) 0 (6911 / 10000) z) <= 36 / 1000.
Proof.
  intros z Hz. unfold Dc_of, DL_of, PLANCK_2015_Cosmology, SPEED_OF_LIGHT, default_max_z, default_dz. cbn [Ho omega_matter omega_radiation omega_lambda].
  replace (6774 / 100 * 1000) with 67740 by lra. replace (6911 / 10000) with (1 - 3089 / 10000) by lra.
  pose proof (C148_comoving 299792458 67740 (3089 / 10000) 4 (/ 1000) z ltac:(lra) ltac:(lra) ltac:(lra) ltac:(lra) ltac:(lra) Hz) as A.
  pose proof (C148_luminosity 299792458 67740 (3089 / 10000) 4 (/ 1000) z ltac:(lra) ltac:(lra) ltac:(lra) ltac:(lra) ltac:(lra) Hz) as B.
  assert ((1 + z) * (5 * z + 3) <= 115) by nra.
  split; (eapply Rle_trans; [eassumption|]); cbn [pow]; lra.
Qed.
Print Assumptions C148_planck_2015.
Theorem C148_planck_2018 : forall z, 0 <= z <= 4 ->
  Rabs (Dc_of PLANCK_2018_Cosmology z - comoving_distance 299792458 67320 (3158 / 10000) 0 (6842 / 10000) z) <= 7 / 1000
  /\ Rabs (DL_of PLANCK_2018_Cosmology z - luminosity_distance 299792458 67320 (3158 / 10000) 0 (6842 / 10000) z) <= 36 / 1000.
Proof.
  intros z Hz. unfold Dc_of, DL_of, PLANCK_2018_Cosmology, SPEED_OF_LIGHT, default_max_z, default_dz. cbn [Ho omega_matter omega_radiation omega_lambda].
  replace (6732 / 100 * 1000) with 67320 by lra. replace (6842 / 10000) with (1 - 3158 / 10000) by lra.
  pose proof (C148_comoving 299792458 67320 (3158 / 10000) 4 (/ 1000) z ltac:(lra) ltac:(lra) ltac:(lra) ltac:(lra) ltac:(lra) Hz) as A.
  pose proof (C148_luminosity 299792458 67320 (3158 / 10000) 4 (/ 1000) z ltac:(lra) ltac:(lra) ltac:(lra) ltac:(lra) ltac:(lra) Hz) as B.
  assert ((1 + z) * (5 * z + 3) <= 115) by nra.
  split; (eapply Rle_trans; [eassumption|]); cbn [pow]; lra.
Qed.
Print Assumptions C148_planck_2018.

(** so redshift and distance determine each other up to redshift 4 *)
Theorem C148_round_trip : forall a, a = PLANCK_2015_Cosmology \/ a = PLANCK_2018_Cosmology ->
  forall z, 0 <= z <= 4 -> redshift_of a (DL_of a z) = z.
Proof.
  intros a Ha z Hz. unfold redshift_of, DL_of, SPEED_OF_LIGHT, default_max_z, default_dz.
  apply C61_redshift_recovered; try lra; destruct Ha as [E|E]; rewrite E;
    cbn [Ho omega_matter omega_radiation omega_lambda PLANCK_2015_Cosmology PLANCK_2018_Cosmology]; try lra;
    apply flat_expanding; lra.
Qed.
Print Assumptions C148_round_trip.
Example C148_round_trip_nonvacuous : redshift_of PLANCK_2018_Cosmology (DL_of PLANCK_2018_Cosmology (1 / 2)) = 1 / 2
  /\ Ho PLANCK_2018_Cosmology < Ho PLANCK_2015_Cosmology.
Proof. split; [apply C148_round_trip; [auto|lra]|]. cbn. lra. Qed.
