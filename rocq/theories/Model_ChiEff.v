(** Model of chi_effective_prior_from_isotropic_spins,
    gwkokab/poisson_mean/_analytic_spin_prior.py:259-323, for one chi_eff, q and amax.
    The dilogarithm (scipy.special.spence) is a parameter: its real part at a real argument. *)
From Coq Require Import Reals List Bool.
From Verif Require Import Model_X Model_Transform.
Import ListNotations.
Open Scope R_scope.

(** largest finite float64 *)
Definition max_float : R := (2 - / 2 ^ 52) * 2 ^ 1023.
(** np.nan_to_num with its defaults *)
Definition nan_to_num (a : X) : X :=
  match a with Fin r => Fin r | NaN => Fin 0 | PInf => Fin max_float | NInf => Fin (- max_float) end.
(** a == 1, as the number 1 or 0 *)
Definition is_one (a : X) : X :=
  match a with Fin r => if Req_EM_T r 1 then Fin 1 else Fin 0 | _ => Fin 0 end.

Section Prior.
Variable Li2 : R -> R.
(** Li2(x + 0j).real, _analytic_spin_prior.py:239-245; infinite arguments give NaN *)
Definition xli2 (x : X) : X := match x with Fin r => Fin (Li2 r) | _ => NaN end.

(** lines 285-287 *)
Definition max_primary (q amax : R) : R := amax / (1 + q).
Definition max_secondary (q amax : R) : R := q * amax / (1 + q).
Definition max_difference (q amax : R) : R := amax * (1 - q) / (1 + q).

(** lines 294-295 *)
Definition secondary_ratio (chi q amax : R) : X := xdiv (Fin (max_secondary q amax)) (Fin chi).
Definition primary_ratio (chi q amax : R) : X := xdiv (Fin (max_primary q amax)) (Fin chi).

(** lines 297-304 *)
Definition lower (chi q amax : R) : X :=
  let s := secondary_ratio chi q amax in
  xdiv
    (xadd
       (xsub (xsub (Fin 4) (xln (Fin (q * q))))
             (xln (xabs (xsub (xdiv (Fin 1) (xmul s s)) (Fin 1)))))
       (xdiv
          (nan_to_num
             (xadd (xln (xdiv (xabs (xsub (Fin 1) s)) (xadd (Fin 1) s)))
                   (xsub (xli2 (xopp s)) (xli2 s))))
          s))
    (Fin (4 * max_primary q amax)).

(** lines 307-310 *)
Definition boundary_term (ratio : X) : X :=
  xln (xadd (xabs (xsub (xdiv (Fin 1) ratio) (Fin 1))) (is_one ratio)).

(** lines 312-319 *)
Definition upper (chi q amax : R) : X :=
  let s := secondary_ratio chi q amax in
  let p := primary_ratio chi q amax in
  let primary_term := boundary_term p in
  let secondary_term := boundary_term s in
  xdiv
    (xadd (xadd (xadd (xadd (xadd
       (Fin (2 * (amax - chi)))
       (xmul (Fin (max_difference q amax)) (xln (Fin q))))
       (xmul (Fin (chi - max_secondary q amax)) secondary_term))
       (xmul (Fin (chi - max_primary q amax)) primary_term))
       (xmul (xmul (Fin chi) (xln p)) (xsub primary_term (xln (Fin q)))))
       (xmul (Fin chi) (xsub (xli2 (xsub (Fin 1) p)) (xli2 s))))
    (Fin (4 * max_primary q amax * max_secondary q amax)).

(** lines 283, 289-291, 321-323 *)
Definition chi_effective_prior (chi_eff q amax : R) : X :=
  let chi := Rabs chi_eff in
  if Rlt_dec chi (max_difference q amax) then lower chi q amax
  else if Rlt_dec chi amax then upper chi q amax
  else Fin 0.
End Prior.
