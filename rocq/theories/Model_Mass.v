(** Models of the mass distributions (gwkokab/models/mass/_models.py, _bpls.py), the Planck taper
    (gwkokab/utils/kernel.py) and the truncated normal (gwkokab/utils/math.py).  Parameters and
    values are finite numbers, log densities are floats.  Batch shapes are not modelled. *)
From Coq Require Import Reals List Bool.
From Verif Require Import Model_X Model_Powerlaw Model_Gauss Model_Constraints Model_Cosmology.
Import ListNotations.
Open Scope R_scope.

(** numpyro.distributions.util.validate_sample: with argument validation on, values outside the
    support get log density -inf *)
Definition validated (validate inside : bool) (lp : X) : X :=
  if validate then (if inside then lp else NInf) else lp.

(** ** PowerlawPrimaryMassRatio, mass/_models.py *)
(** log_prob, 84-98 *)
Definition pmr_log_prob (alpha beta mmin mmax m1 q : R) : X :=
  let log_prob_m1 := powerlaw_log_prob m1 (- alpha) mmin mmax in
  let log_prob_q := if Rle_dec m1 mmin then NInf else powerlaw_log_prob q beta (mmin / m1) 1 in
  xadd log_prob_m1 log_prob_q.
Definition pmr_validated (alpha beta mmin mmax m1 q : R) : X :=
  validated true (mass_ratio_mass_sandwich (Fin mmin) (Fin mmax) (Fin m1) (Fin q))
    (pmr_log_prob alpha beta mmin mmax m1 q).
(** sample, 100-110, as a function of the two uniforms; a primary mass that is not a finite number
    would give a NaN ratio *)
Definition pmr_sample (alpha beta mmin mmax u1 u2 : R) : X * X :=
  let m1 := powerlaw_icdf u1 (- alpha) mmin mmax in
  match m1 with
  | Fin m => (m1, powerlaw_icdf u2 beta (mmin / m) 1)
  | _ => (m1, NaN)
  end.

(** ** Wysocki2019MassModel, mass/_models.py *)
(** jax.scipy.stats.uniform.logpdf *)
Definition uniform_logpdf (x loc scale : R) : X :=
  if Rlt_dec (loc + scale) x then NInf else if Rlt_dec x loc then NInf else xopp (xln (Fin scale)).
(** log_prob, 164-175 *)
Definition wysocki_log_prob (alpha_m mmin mmax m1 m2 : R) : X :=
  xadd (powerlaw_log_prob m1 (- alpha_m) mmin mmax) (uniform_logpdf m2 mmin (m1 - mmin)).
(** sample, 177-184; jrd.uniform(minval, maxval) is u * (maxval - minval) + minval *)
Definition wysocki_sample (alpha_m mmin mmax u1 u2 : R) : X * X :=
  let m1 := powerlaw_icdf u1 (- alpha_m) mmin mmax in
  (m1, xadd (xmul (Fin u2) (xsub m1 (Fin mmin))) (Fin mmin)).

(** ** _broken_powerlaw_log_prob, mass/_bpls.py:20-52 *)
Definition broken_powerlaw_log_prob (m1 alpha1 alpha2 mmin mmax mbreak : R) : X :=
  let log_norm :=
    logaddexp (xopp (powerlaw_log_prob mbreak (- alpha1) mmin mbreak))
              (xopp (powerlaw_log_prob mbreak (- alpha2) mbreak mmax)) in
  let log_prob := xmul (Fin (if Rlt_dec m1 mbreak then alpha1 else alpha2)) (xln (xdiv (Fin mbreak) (Fin m1))) in
  xsub log_prob log_norm.

(** ** log_planck_taper_window, utils/kernel.py:10-41 *)
(** jax.nn.softplus *)
Definition softplus (x : R) : X := logaddexp (Fin x) (Fin 0).
Definition log_planck_taper_window (x : R) : X :=
  let inv_1 := if Req_EM_T x 0 then 0 else / x in
  let inv_2 := if Req_EM_T x 1 then 0 else / (x - 1) in
  if Rle_dec x 0 then NInf
  else if Rlt_dec x 1 then xopp (softplus (inv_1 + inv_2)) else Fin 0.

(** ** truncnorm_logpdf, utils/math.py *)
(** lax.log1p *)
Definition xlog1p (a : X) : X := xln (xadd (Fin 1) a).
(** logsubexp, 124-141 *)
Definition logsubexp (a b : X) : X := xadd a (xlog1p (xopp (xexp (xsub b a)))).
(** the three ways of computing the log normaliser, 188-192 *)
Definition truncnorm_norm_left (aa bb : R) : X := logsubexp (log_ndtr bb) (log_ndtr aa).
Definition truncnorm_norm_right (aa bb : R) : X := logsubexp (log_ndtr (- aa)) (log_ndtr (- bb)).
Definition truncnorm_norm_central (aa bb : R) : X := xlog1p (Fin (- ndtr aa - ndtr (- bb))).
(** jnp.select, 186-194: the first condition that holds *)
Definition truncnorm_log_norm (aa bb : R) : X :=
  if Rle_dec bb 0 then truncnorm_norm_left aa bb
  else if Rlt_dec 0 aa then truncnorm_norm_right aa bb
  else if Rlt_dec 0 bb then truncnorm_norm_central aa bb
  else NaN.
(** 144-196 *)
Definition truncnorm_logpdf (xx loc scale low high : R) : X :=
  let safe_scale := if Rle_dec scale 0 then 1 else scale in
  let zz := (xx - loc) / safe_scale in
  let aa := (low - loc) / safe_scale in
  let bb := (high - loc) / safe_scale in
  let log_pdf := xsub (Fin (- (1/2) * (zz * zz + ln (2 * PI)))) (xln (Fin safe_scale)) in
  let log_pdf := xsub log_pdf (truncnorm_log_norm aa bb) in
  if Rlt_dec xx low then NInf else if Rlt_dec high xx then NInf
  else if Rle_dec scale 0 then NInf else log_pdf.

(** ** grids *)
(** jnp.linspace(a, b, n) for n >= 2 *)
Definition linspace (a b : R) (n : nat) : list R :=
  map (fun i => a + INR i * ((b - a) / INR (n - 1))) (seq 0 n).
(** jnp.trapezoid(y, x) *)
Fixpoint trapezoid (xs ys : list R) : R :=
  match xs, ys with
  | x0 :: ((x1 :: _) as xs'), y0 :: ((y1 :: _) as ys') => (x1 - x0) * (y1 + y0) / 2 + trapezoid xs' ys'
  | _, _ => 0
  end.
(** jnp.interp(x, xp, fp, left=l, right=r) *)
Definition interp_lr (x : R) (xp fp : list R) (l r : R) : R :=
  if Rlt_dec x (hd 0 xp) then l else if Rlt_dec (last xp 0) x then r else interp x xp fp.

(** ** SmoothedTwoComponentPrimaryMassRatio, mass/_models.py:187-340 *)
Section Smoothed.
Variables alpha beta delta lambda_peak loc mmax mmin scale : R.
Variable validate : bool.
(** _log_prob_m1_unnorm, 303-320 *)
Definition stc_m1_unnorm (m1 : R) : X :=
  let safe_delta := if Rle_dec delta 0 then 1 else delta in
  let log_smoothing_m1 := log_planck_taper_window ((m1 - mmin) / safe_delta) in
  let log_norm_powerlaw := log_norm (- alpha) mmin mmax in
  let prob_norm := norm_pdf m1 loc scale in
  let log_prob_m1 :=
    xadd (xln (xadd (xmul (xmul (Fin (1 - lambda_peak)) (xpower m1 (- alpha))) (xexp (xopp log_norm_powerlaw)))
                    (Fin (lambda_peak * prob_norm))))
         log_smoothing_m1 in
  if Rle_dec delta 0 then NInf else log_prob_m1.
(** _log_prob_q_unnorm, 322-330 *)
Definition stc_q_unnorm (m1 q : R) : X :=
  validated validate (mass_ratio_mass_sandwich (Fin mmin) (Fin mmax) (Fin m1) (Fin q))
    (let m2 := m1 * q in
     let safe_delta := if Rle_dec delta 0 then 1 else delta in
     let log_smoothing_q := log_planck_taper_window ((m2 - mmin) / safe_delta) in
     if Rle_dec delta 0 then NInf else xadd (xmul (Fin beta) (xln (Fin q))) log_smoothing_q).
(** _logZ, 263-284: trapezoid over the smoothed edge plus the closed form for the rest.  The
    integrand is finite or -inf in logarithm (proved), so its exponential is a real number. *)
Definition wval (a : X) : R := match a with Fin x => exp x | _ => 0 end.
Definition stc_edge_grid : list R := linspace mmin (mmin + delta) 100.
Definition stc_numerical : R := trapezoid stc_edge_grid (map (fun m => wval (stc_m1_unnorm m)) stc_edge_grid).
Definition stc_analytical : X :=
  xadd (xmul (Fin (1 - lambda_peak))
             (xexp (xsub (log_norm (- alpha) (mmin + delta) mmax) (log_norm (- alpha) mmin mmax))))
       (Fin (lambda_peak * (ndtr ((mmax - loc) / scale) - ndtr ((mmin + delta - loc) / scale)))).
Definition stc_logZ : X := xln (xadd (Fin stc_numerical) stc_analytical).
(** _m1s, _Z_q_given_m1, 288-297 *)
Definition q_grid : list R := linspace (5/1000) 1 500.
Definition stc_m1s : list R := linspace mmin mmax 1000.
Definition stc_Zq (m1 : R) : R := trapezoid q_grid (map (fun q => wval (stc_q_unnorm m1 q)) q_grid).
(** log_prob, 332-340 *)
Definition stc_log_prob (m1 q : R) : X :=
  validated validate (mass_ratio_mass_sandwich (Fin mmin) (Fin mmax) (Fin m1) (Fin q))
    (let log_prob_m1 := xsub (stc_m1_unnorm m1) stc_logZ in
     let Zq := interp_lr m1 stc_m1s (map stc_Zq stc_m1s) 1 1 in
     let log_Zq := if Rle_dec Zq 0 then Fin 0 else xln (Fin Zq) in
     let log_prob_q := xsub (stc_q_unnorm m1 q) log_Zq in
     xadd log_prob_m1 log_prob_q).
End Smoothed.

(** ** BrokenPowerlawTwoPeak, mass/_bpls.py:101-344 *)
Section TwoPeak.
Variables alpha1 alpha2 beta loc1 loc2 scale1 scale2 delta_m1 delta_m2 lambda_0 lambda_1 : R.
Variables m1min m2min mmax mbreak : R.
Variable validate : bool.
(** _log_prob_m1_unnorm, 293-322 *)
Definition b2p_m1_unnorm (m1 : R) : X :=
  let safe_delta := if Rle_dec delta_m1 0 then 1 else delta_m1 in
  let log_smoothing_m1 := log_planck_taper_window ((m1 - m1min) / safe_delta) in
  let broken := broken_powerlaw_log_prob m1 alpha1 alpha2 m1min mmax mbreak in
  let norm_0 := truncnorm_logpdf m1 loc1 scale1 m1min mmax in
  let norm_1 := truncnorm_logpdf m1 loc2 scale2 m1min mmax in
  let log_prob_m1 :=
    xadd log_smoothing_m1
      (xln (xadd (xadd (xmul (Fin lambda_0) (xexp broken)) (xmul (Fin lambda_1) (xexp norm_0)))
                 (xmul (Fin (1 - (lambda_0 + lambda_1))) (xexp norm_1)))) in
  if Rle_dec delta_m1 0 then NInf else if Rlt_dec m1 m1min then NInf else log_prob_m1.
(** _log_prob_q_unnorm, 324-334 *)
Definition b2p_q_unnorm (m1 q : R) : X :=
  validated validate (mass_ratio_mass_sandwich (Fin m2min) (Fin mmax) (Fin m1) (Fin q))
    (let m2 := m1 * q in
     let safe_delta := if Rle_dec delta_m2 0 then 1 else delta_m2 in
     let log_smoothing_q := log_planck_taper_window ((m2 - m2min) / safe_delta) in
     if Rle_dec delta_m2 0 then NInf else if Rlt_dec m2 m2min then NInf
     else xadd (xmul (Fin beta) (xln (Fin q))) log_smoothing_q).
(** _logZ, 272-279 *)
Definition b2p_m1_grid : list R := linspace m1min mmax 1000.
Definition b2p_logZ : X := xln (Fin (trapezoid b2p_m1_grid (map (fun m => wval (b2p_m1_unnorm m)) b2p_m1_grid))).
(** _m1s, _Z_q_given_m1, 281-287 *)
Definition b2p_m1s : list R := linspace m2min mmax 1000.
Definition b2p_Zq (m1 : R) : R := trapezoid q_grid (map (fun q => wval (b2p_q_unnorm m1 q)) q_grid).
(** log_prob, 336-344 *)
Definition b2p_log_prob (m1 q : R) : X :=
  validated validate (mass_ratio_mass_sandwich (Fin m2min) (Fin mmax) (Fin m1) (Fin q))
    (let log_prob_m1 := xsub (b2p_m1_unnorm m1) b2p_logZ in
     let Zq := interp_lr m1 b2p_m1s (map b2p_Zq b2p_m1s) 1 1 in
     let log_Zq := if Rle_dec Zq 0 then Fin 0 else xln (Fin Zq) in
     let log_prob_q := xsub (b2p_q_unnorm m1 q) log_Zq in
     xadd log_prob_m1 log_prob_q).
End TwoPeak.
