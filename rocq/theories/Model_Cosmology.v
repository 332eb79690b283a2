(** Model of gwkokab/cosmology/_cosmology.py over the reals. *)
From Coq Require Import Reals List ZArith.
From Verif Require Import Model_X Model_Likelihood.
Import ListNotations.
Open Scope R_scope.

(** jnp.arange(0.0, stop, step) for positive [step]: ceil(stop/step) points i*step *)
Definition ceil (x : R) : Z := (- Int_part (- x))%Z.
Definition arange0 (stop step : R) : list R :=
  map (fun i => INR i * step) (seq 0 (Z.to_nat (ceil (stop / step)))).

(** quadax.cumulative_trapezoid(y, x=x, initial=0.0) *)
Fixpoint cumtrapz_from (acc : R) (xs ys : list R) : list R :=
  match xs, ys with
  | x0 :: ((x1 :: _) as xs'), y0 :: ((y1 :: _) as ys') =>
    let s := acc + (x1 - x0) * (y1 + y0) / 2 in s :: cumtrapz_from s xs' ys'
  | _, _ => []
  end.
Definition cumulative_trapezoid (xs ys : list R) : list R := 0 :: cumtrapz_from 0 xs ys.

(** jnp.interp(x, xp, fp) on increasing xp: the cell is found by searchsorted(side="right") clipped
    into the range, below the first and above the last knot the end values are returned.
    [pts] are the pairs (xp, fp); jnp.interp raises when there are none. *)
Fixpoint interp_cell (x : R) (pts : list (R * R)) : R :=
  match pts with
  | [] => 0
  | [p] => snd p
  | (x0, f0) :: (((x1, f1) :: t) as rest) =>
    let here := f0 + (x - x0) / (x1 - x0) * (f1 - f0) in
    match t with
    | [] => here
    | _ => if Rlt_dec x x1 then here else interp_cell x rest
    end
  end.
Definition interp (x : R) (xp fp : list R) : R :=
  let pts := combine xp fp in
  if Rlt_dec x (hd 0 xp) then hd 0 fp
  else if Rlt_dec (last xp 0) x then last fp 0
  else interp_cell x pts.

Section Cosmology.
(** constants.SPEED_OF_LIGHT and the arguments of __init__, 28-68 *)
Variables speed_of_light Ho omega_matter omega_radiation omega_lambda max_z dz : R.
Definition OmegaKappa : R := 1 - (omega_matter + omega_radiation + omega_lambda).
(** _z, 62 *)
Definition grid_z : list R := arange0 (max_z + dz) dz.

(** z_to_E, 71-78 *)
Definition E_squared (z : R) : R :=
  let zp1 := 1 + z in
  omega_lambda + OmegaKappa * zp1 ^ 2 + omega_matter * zp1 ^ 3 + omega_radiation * zp1 ^ 4.
Definition z_to_E (z : R) : R := sqrt (E_squared z).
(** dDcdz, 80-81 *)
Definition dDcdz (z : R) : R := speed_of_light / Ho / z_to_E z.
(** _Dc, 63-65 *)
Definition grid_Dc : list R := cumulative_trapezoid grid_z (map dDcdz grid_z).
(** DL, 114-116 *)
Definition grid_DL : list R := map2 (fun d z => d * (1 + z)) grid_Dc grid_z.
(** z_to_Dc, z_to_DL, DL_to_z, 101-111 *)
Definition z_to_Dc (z : R) : R := interp z grid_z grid_Dc.
Definition z_to_DL (z : R) : R := interp z grid_z grid_DL.
Definition DL_to_z (d : R) : R := interp d grid_DL grid_z.
(** dDLdz, 83-85 *)
Definition dDLdz (z : R) : R := dDcdz z * (1 + z) + z_to_Dc z.
(** logdVcdz and dVcdz, 87-98; the comoving distance is given or interpolated *)
Definition logdVcdz (z Dc : R) : X :=
  xadd (xadd (xsub (xln (Fin (4 * PI))) (xmul (Fin 9) (xln (Fin 10)))) (xmul (Fin 2) (xln (Fin Dc))))
       (xln (Fin (dDcdz z))).
Definition dVcdz (z Dc : R) : X := xexp (logdVcdz z Dc).
(** Vc, 66-68: the integrand is a finite number on the grid (theorem C63) *)
Definition fin_part (a : X) : R := match a with Fin r => r | _ => 0 end.
Definition grid_Vc : list R :=
  cumulative_trapezoid grid_z (map2 (fun z d => fin_part (dVcdz z d)) grid_z grid_Dc).
End Cosmology.

(** a real function on floats; the theorems only use finite arguments *)
Definition lift (f : R -> R) (a : X) : X := match a with Fin x => Fin (f x) | _ => NaN end.
