(** The density of the smoothed hybrid mass models, models/hybrids/_utils.py:82-208 and the
    normalisation computed in _o3_n_pls_m_gs.py:155-177, _o4_n_bpls_m_gs.py:156-178.
    How its pieces are assembled from the parameters is in Model_Smoothed.v; here the mixing
    fractions and the log densities of the components are given.  [T] holds the coordinates between
    the primary mass and the mass ratio. *)
From Coq Require Import Bool Reals List.
From Verif Require Import Model_X Model_Cosmology Model_Mass Model_Spin.
Import ListNotations.
Open Scope R_scope.

Section Density.
Context {T : Type}.
Variable validate : bool.
Variables beta delta_m1 delta_m2 log_rate m1max m1min m2min : R.
Variable lambdas : list R.
(** a component: the log density of its mass distribution and the sum of the log densities of its
    other distributions *)
Variable components : list ((R -> X) * (T -> X)).
(** rest_dist._support, the union of the supports of the components *)
Variable rest_support : R -> T -> bool.

(** where(delta <= 0, 1, delta) *)
Definition safe_delta (delta : R) : R := if Rle_dec delta 0 then 1 else delta.
(** mass_dist_mixture.log_prob + taper, _o3:163-170, _o4:164-171 *)
Definition sd_log_prob_m1 (m : R) : X :=
  xadd (mixture_general lambdas (map (fun c => fst c m) components))
       (log_planck_taper_window ((m - m1min) / safe_delta delta_m1)).
Definition sd_mm : list R := linspace m1min m1max 1000.
Definition sd_prob_m1 (m : R) : R := if Rle_dec delta_m1 0 then 0 else wval (sd_log_prob_m1 m).
(** logZ, _o3:171-172, _o4:172-173 *)
Definition sd_Z : R := trapezoid sd_mm (map sd_prob_m1 sd_mm).
Definition sd_logZ : X := xln (Fin sd_Z).

(** _log_prob_q_unnorm, 166-180 *)
Definition sd_q_unnorm (m1 q : R) : X :=
  let m2 := m1 * q in
  let log_smoothing_m2 := log_planck_taper_window ((m2 - m2min) / safe_delta delta_m2) in
  let log_prob_q := xadd (xmul (Fin beta) (xln (Fin q))) log_smoothing_m2 in
  if Rle_dec delta_m2 0 then NInf
  else if Rlt_dec m2 m2min then NInf
  else if Rlt_dec m1 m2 then NInf
  else if Rlt_dec m1max m1 then NInf
  else if isneginf log_smoothing_m2 then NInf
  else log_prob_q.
(** _m1s, _Z_q_given_m1, 153-160 *)
Definition sd_m1s : list R := linspace m1min m1max 1000.
Definition sd_Zq (m1 : R) : R := trapezoid q_grid (map (fun q => wval (sd_q_unnorm m1 q)) q_grid).

(** rest_dist.log_prob: JointDistribution adds the log densities of its members *)
Definition sd_rest (m1 : R) (t : T) : X :=
  mixture_general lambdas (map (fun c => xadd (fst c m1) (snd c t)) components).
(** log_prob, 182-208 *)
Definition sd_log_prob (m1 : R) (t : T) (q : R) : X :=
  validated validate (rest_support m1 t && (if Rle_dec 0 q then if Rle_dec q 1 then true else false else false))
    (let log_smoothing_m1 := log_planck_taper_window ((m1 - m1min) / safe_delta delta_m1) in
     let rest_log_prob := xsub (xadd (sd_rest m1 t) log_smoothing_m1) sd_logZ in
     let Z_q := interp_lr m1 sd_m1s (map sd_Zq sd_m1s) 0 0 in
     let log_Z_q := if Rle_dec Z_q 0 then Fin 0 else xln (Fin Z_q) in
     let log_prob_val := xsub (xadd (xadd (Fin log_rate) rest_log_prob) (sd_q_unnorm m1 q)) log_Z_q in
     if Rle_dec delta_m1 0 then NInf else if isneginf log_prob_val then NInf else log_prob_val).
End Density.
