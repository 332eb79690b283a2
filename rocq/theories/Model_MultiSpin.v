(** Model of BrokenPowerlawTwoPeakMultiSpinMultiTilt, gwkokab/models/hybrids/_bp2pmultispinfull.py:24-742:
    a four-component mass model (two power-law pieces, two peaks) in which every component has its
    own spin-magnitude and tilt distribution. *)
From Coq Require Import Reals List Bool.
From Verif Require Import Model_X Model_Powerlaw Model_Gauss Model_Constraints Model_Mass.
Import ListNotations.
Open Scope R_scope.

(** the spin parameters of one component: those with suffix bpl1, bpl2, n1 or n2 *)
Record spin_comp := mkspin {
  a1_loc : R; a1_scale : R; a1_low : R; a1_high : R;
  a2_loc : R; a2_scale : R; a2_low : R; a2_high : R;
  tilt_zeta : R; t1_loc : R; t1_scale : R; t2_loc : R; t2_scale : R }.

(** one entry of _log_prob_a1_components (601-630) and of _log_prob_a2_components (632-661) *)
Definition a1_component (a1 : R) (c : spin_comp) : X := truncnorm_logpdf a1 (a1_loc c) (a1_scale c) (a1_low c) (a1_high c).
Definition a2_component (a2 : R) (c : spin_comp) : X := truncnorm_logpdf a2 (a2_loc c) (a2_scale c) (a2_low c) (a2_high c).
(** one pass of the loop of _log_prob_t1_t2_components, 663-714 *)
Definition tilt_component (t1 t2 : R) (c : spin_comp) : X :=
  let comp_gaussian :=
    xadd (xadd (xln (Fin (tilt_zeta c))) (truncnorm_logpdf t1 (t1_loc c) (t1_scale c) (- (1)) 1))
         (truncnorm_logpdf t2 (t2_loc c) (t2_scale c) (- (1)) 1) in
  let comp_uniform := xadd (xlog1p (Fin (- tilt_zeta c))) (xln (Fin (1/4))) in
  logaddexp comp_gaussian comp_uniform.

Section MultiSpin.
Variables alpha1 alpha2 beta loc1 loc2 scale1 scale2 delta_m1 delta_m2 lambda_0 lambda_1 : R.
Variables m1min m2min mmax mbreak : R.
Variables bpl1 bpl2 n1 n2 : spin_comp.
Variable validate : bool.

(** _log_prob_m1_unnorm_component, 536-589 *)
Definition ms_m1_components (m1 : R) : list X :=
  let safe_delta := if Rle_dec delta_m1 0 then 1 else delta_m1 in
  let log_smoothing_m1 := log_planck_taper_window ((m1 - m1min) / safe_delta) in
  let log_mbreak := xln (Fin mbreak) in
  let log_m1 := xln (Fin m1) in
  let log_norm_bpl :=
    logaddexp (xopp (powerlaw_log_prob mbreak (- alpha1) m1min mbreak))
              (xopp (powerlaw_log_prob mbreak (- alpha2) mbreak mmax)) in
  let log_prob_bpl_1 := if Rlt_dec m1 mbreak then xmul (Fin alpha1) (xsub log_mbreak log_m1) else NInf in
  let log_prob_bpl_2 := if Rlt_dec m1 mbreak then NInf else xmul (Fin alpha2) (xsub log_mbreak log_m1) in
  let log_prob_norm_0 := truncnorm_logpdf m1 loc1 scale1 m1min mmax in
  let log_prob_norm_1 := truncnorm_logpdf m1 loc2 scale2 m1min mmax in
  let components :=
    [xadd (xsub (xadd (xln (Fin lambda_0)) log_prob_bpl_1) log_norm_bpl) log_smoothing_m1;
     xadd (xsub (xadd (xln (Fin lambda_0)) log_prob_bpl_2) log_norm_bpl) log_smoothing_m1;
     xadd (xadd (xln (Fin lambda_1)) log_prob_norm_0) log_smoothing_m1;
     xadd (xadd (xlog1p (Fin (- (lambda_0 + lambda_1)))) log_prob_norm_1) log_smoothing_m1] in
  map (fun lp => if Rle_dec delta_m1 0 then NInf else if Rlt_dec m1 m1min then NInf else lp) components.
(** _log_prob_q_unnorm, 591-599 *)
Definition ms_q_unnorm (m1 q : R) : X :=
  let safe_delta := if Rle_dec delta_m2 0 then 1 else delta_m2 in
  let log_smoothing_q := log_planck_taper_window ((m1 * q - m2min) / safe_delta) in
  let log_prob_q := xadd (xmul (Fin beta) (xln (Fin q))) log_smoothing_q in
  if Rle_dec delta_m2 0 then NInf else if Rlt_dec (m1 * q) m2min then NInf else log_prob_q.
(** _logZ, 513-520: the sum over the components of exp is a real number (proved) *)
Definition ms_m1_grid : list R := linspace m1min mmax 1000.
Definition ms_logZ : X :=
  xln (Fin (trapezoid ms_m1_grid
              (map (fun m => fold_right (fun lp s => wval lp + s) 0 (ms_m1_components m)) ms_m1_grid))).
(** _m1s, _Z_q_given_m1, 522-528 *)
Definition ms_m1s : list R := linspace m2min mmax 1000.
Definition ms_Zq (m1 : R) : R := trapezoid q_grid (map (fun q => wval (ms_q_unnorm m1 q)) q_grid).
(** _support, 445-502 *)
Definition ms_min (f : spin_comp -> R) : R := Rmin (Rmin (Rmin (f bpl1) (f bpl2)) (f n1)) (f n2).
Definition ms_max (f : spin_comp -> R) : R := Rmax (Rmax (Rmax (f bpl1) (f bpl2)) (f n1)) (f n2).
Definition interval (lo hi x : R) : bool := (if Rle_dec lo x then true else false) && (if Rle_dec x hi then true else false).
Definition ms_support (m1 q a1 a2 t1 t2 : R) : bool :=
  mass_ratio_mass_sandwich (Fin m2min) (Fin mmax) (Fin m1) (Fin q)
  && interval (ms_min a1_low) (ms_max a1_high) a1 && interval (ms_min a2_low) (ms_max a2_high) a2
  && interval (- (1)) 1 t1 && interval (- (1)) 1 t2.
(** log_prob, 716-742 *)
Definition ms_log_prob (m1 q a1 a2 t1 t2 : R) : X :=
  validated validate (ms_support m1 q a1 a2 t1 t2)
   (let component :=
      map (fun mc => xadd (xadd (xadd (fst mc) (a1_component a1 (snd mc))) (a2_component a2 (snd mc)))
                          (tilt_component t1 t2 (snd mc)))
          (combine (ms_m1_components m1) [bpl1; bpl2; n1; n2]) in
    let log_prob_m1_a1_a2_t1_t2 := logsumexp_where (map (fun a => (negb (isneginf a), a)) component) in
    let Zq := interp_lr m1 ms_m1s (map ms_Zq ms_m1s) 1 1 in
    let log_Zq := if Rle_dec Zq 0 then Fin 0 else xln (Fin Zq) in
    let log_prob_q := xsub (ms_q_unnorm m1 q) log_Zq in
    xsub (xadd log_prob_m1_a1_a2_t1_t2 log_prob_q) ms_logZ).
End MultiSpin.
