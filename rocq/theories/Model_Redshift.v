(** Model of gwkokab/models/redshift/_models.py.  Redshifts are finite numbers. *)
From Coq Require Import Reals List Bool.
From Verif Require Import Model_X Model_Powerlaw Model_Cosmology Model_Mass.
Import ListNotations.
Open Scope R_scope.

(** PowerlawRedshift.log_psi_of_z, 136-155 *)
Definition powerlaw_log_psi (kappa z : R) : X := xmul (Fin kappa) (xlog1p (Fin z)).
(** MadauDickinsonRedshift.log_psi_of_z, 209-235 *)
Definition madau_log_psi (kappa gamma z_peak z : R) : X :=
  let zp1 := 1 + z in
  let z_peak_p1 := 1 + z_peak in
  xsub (xadd (xmul (Fin kappa) (xlog1p (Fin z))) (xlog1p (xpower z_peak_p1 gamma)))
       (xln (xadd (xpower z_peak_p1 gamma) (xpower zp1 gamma))).

Section Redshift.
(** the default cosmology, and the subclass's log_psi_of_z *)
Variables c Ho Om Or Ol max_z dz : R.
Variable log_psi_of_z : R -> X.
Variable z_max : R.
Variable validate : bool.
(** log_differential_spacetime_volume, 37-44 *)
Definition log_spacetime (z : R) : X :=
  let log_dVcdz := logdVcdz c Ho Om Or Ol z (z_to_Dc c Ho Om Or Ol max_z dz z) in
  let log_time_dilation := xopp (xlog1p (Fin z)) in
  xadd (xadd log_time_dilation log_dVcdz) (log_psi_of_z z).
(** log_norm, 46-54: the integrand is a finite number on the grid (proved) *)
Definition redshift_log_norm : X :=
  let z_grid := linspace 0 z_max 2500 in
  let pdfs := map (fun z => wval (log_spacetime z)) z_grid in
  xln (Fin (trapezoid z_grid pdfs)).
(** sample, 56-80, for the uniform draw [u] *)
Definition redshift_cdf : list R :=
  let z_grid := linspace 0 z_max 10000 in
  let pdfgrid := map (fun z => wval (log_spacetime z)) z_grid in
  let norm := trapezoid z_grid pdfgrid in
  let pdfgrid := map (fun p => p / norm) pdfgrid in
  let cdfgrid := cumulative_trapezoid z_grid pdfgrid in
  map (fun x => x / last cdfgrid 0) cdfgrid.
Definition redshift_sample (u : R) : R := interp u redshift_cdf (linspace 0 z_max 10000).
(** log_prob, 85-99, with the support [0, z_max] *)
Definition redshift_log_prob (z : R) : X :=
  validated validate ((if Rle_dec 0 z then true else false) && (if Rle_dec z z_max then true else false)) (log_spacetime z).
End Redshift.
