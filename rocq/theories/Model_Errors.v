(** Measurement-error models (src/gwkokab/errors.py). *)
From Coq Require Import Reals List Bool Arith.
From Verif Require Import Model_X Model_Key Model_Transform.
Import ListNotations.
Open Scope R_scope.

(** ** banana_error_m1_m2 (lines 21-95), for one event and one sample.
    The random numbers r0, r0p (per event), r, rp (per sample, already scaled) and u (uniform) are inputs;
    [msun] is lalsimutils.MsunInSec. *)
Definition xminimum2 (a b : X) : X := xopp (xmax (xopp a) (xopp b)).
(** line 65 *)
Definition snr (u : R) : X := xmul (Fin 9) (xpow (Fin u) (-(1/3))).
(** lines 67-83: the relative width of the chirp-mass error *)
Definition chirp_error_scale (msun : R) (Mc_true rho : X) : X :=
  let v := xpow (xmul (Fin PI) (xmul Mc_true (Fin (20 * msun)))) (1/3) in
  let v := xminimum2 v (Fin (1/5)) in
  let snr_fac := xdiv rho (Fin 12) in
  let fisher := xdiv (xmul (Fin (3/2 * (3/10))) (match xdiv v (Fin (1/5)) with Fin y => Fin (y ^ 7) | y => y end)) snr_fac in
  xminimum2 (xdiv (Fin (7/100)) snr_fac) fisher.
(** lines 85-93: masses from a chirp mass and a symmetric mass ratio *)
Definition masses_from (Mc eta : X) : X * X :=
  let etaV := xsub (Fin 1) (xmul (Fin 4) eta) in
  let root := if xleb (Fin 0) etaV then xsqrt etaV else NaN in
  let factor := xmul (xmul (Fin (1/2)) Mc) (xpow eta (-(3/5))) in
  (xmul factor (xadd (Fin 1) root), xmul factor (xsub (Fin 1) root)).
Definition banana (msun : R) (m1 m2 : X) (r0 r0p r rp u : R) : X * X :=
  let rho := snr u in
  let Mc_true := chirp_mass m1 m2 in
  let eta_true := symmetric_mass_ratio m1 m2 in
  let beta := chirp_error_scale msun Mc_true rho in
  let Mc := xmul Mc_true (xadd (Fin 1) (xmul beta (Fin (r0 + r)))) in
  let eta := xmul eta_true (xadd (Fin 1) (xmul (xmul (Fin (3/100)) (xdiv (Fin 12) rho)) (Fin (r0p + rp)))) in
  masses_from Mc eta.

(** ** truncated_normal_error (lines 98-183), for a scalar parameter.
    [sample key n] is err_dist.sample(key, (n,)). *)
Section Truncated.
Variable sample : rng -> nat -> list X.
Variables cut_low cut_high : option X.
(** lines 163-167 *)
Definition out_of_range (x : X) : bool :=
  match cut_low with Some c => xltb x c | None => false end
  || match cut_high with Some c => xltb c x | None => false end.
(** lines 177-181: put the new samples at the positions of the invalid ones, in order *)
Fixpoint replace_invalid (err new : list X) : list X :=
  match err with
  | [] => []
  | x :: t => if out_of_range x
              then match new with n :: ns => n :: replace_invalid t ns | [] => x :: replace_invalid t [] end
              else x :: replace_invalid t new
  end.
Definition count_invalid (err : list X) : nat := length (filter out_of_range err).
(** the loop of lines 162-181; None when [fuel] iterations are not enough *)
Fixpoint resample (fuel : nat) (key : rng) (err : list X) : option (list X) :=
  if existsb out_of_range err
  then match fuel with
       | O => None
       | S fuel => let key := fst (split2 key) in
                   resample fuel key (replace_invalid err (sample key (count_invalid err)))
       end
  else Some err.
(** [scale] is only checked for presence *)
Inductive outcome := Raised | Running | Returned (l : list X).
Definition truncated_normal_error (scale : option R) (size : nat) (key : rng) (fuel : nat) : outcome :=
  match scale with
  | None => Raised
  | Some _ =>
      let err := sample key size in
      match cut_low, cut_high with
      | None, None => Returned err
      | _, _ => match resample fuel key err with Some l => Returned l | None => Running end
      end
  end.
End Truncated.
