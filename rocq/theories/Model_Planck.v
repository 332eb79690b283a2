(** gwkokab/cosmology/_planck.py: the two cosmologies of the package, as the arguments they hand to Cosmology.
    The numbers are taken as the decimal fractions that are written, without their rounding to floats. *)
From Coq Require Import Reals.
From Verif Require Import Model_Cosmology.
Open Scope R_scope.

(** gwkokab/constants.py:10, in m/s *)
Definition SPEED_OF_LIGHT : R := 299792458.

(** the arguments of Cosmology.__init__ in their order, _cosmology.py:28-36 *)
Record arguments := { Ho : R; omega_matter : R; omega_radiation : R; omega_lambda : R }.
(** the defaults of max_z and dz, _cosmology.py:34-35 *)
Definition default_max_z : R := 4.
Definition default_dz : R := / 1000.

(** PLANCK_2015_Cosmology, _planck.py:8-20 *)
Definition PLANCK_2015_Cosmology : arguments :=
  let PLANCK_2015_Ho := 6774 / 100 * 1000 in
  let PLANCK_2015_OmegaMatter := 3089 / 10000 in
  let PLANCK_2015_OmegaLambda := 1 - PLANCK_2015_OmegaMatter in
  let PLANCK_2015_OmegaRadiation := 0 in
  Build_arguments PLANCK_2015_Ho PLANCK_2015_OmegaMatter PLANCK_2015_OmegaRadiation PLANCK_2015_OmegaLambda.
(** PLANCK_2018_Cosmology, _planck.py:23-35 *)
Definition PLANCK_2018_Cosmology : arguments :=
  let PLANCK_2018_Ho := 6732 / 100 * 1000 in
  let PLANCK_2018_OmegaMatter := 3158 / 10000 in
  let PLANCK_2018_OmegaLambda := 1 - PLANCK_2018_OmegaMatter in
  let PLANCK_2018_OmegaRadiation := 0 in
  Build_arguments PLANCK_2018_Ho PLANCK_2018_OmegaMatter PLANCK_2018_OmegaRadiation PLANCK_2018_OmegaLambda.

(** the methods of such a cosmology, _cosmology.py:101-111 *)
Definition Dc_of (a : arguments) : R -> R :=
  z_to_Dc SPEED_OF_LIGHT (Ho a) (omega_matter a) (omega_radiation a) (omega_lambda a) default_max_z default_dz.
Definition DL_of (a : arguments) : R -> R :=
  z_to_DL SPEED_OF_LIGHT (Ho a) (omega_matter a) (omega_radiation a) (omega_lambda a) default_max_z default_dz.
Definition redshift_of (a : arguments) : R -> R :=
  DL_to_z SPEED_OF_LIGHT (Ho a) (omega_matter a) (omega_radiation a) (omega_lambda a) default_max_z default_dz.
