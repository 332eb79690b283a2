(** Model of the distance tables of gwkokab/cosmology/_cosmology.py in floating-point arithmetic.

    Format, rounding and orders of summation are those of Model_Rounding.  The redshifts [_z], the
    densities, Ok = _OmegaKappa and [ratio] = SPEED_OF_LIGHT / _Ho are the floats the array operations get: with
    the arguments used in the repository they are Python numbers, computed in double precision
    and rounded once when they meet an array.  Every operation is rounded once; an XLA build that
    fuses a product with a sum is not covered. *)
From Coq Require Import Reals List ZArith.
From Flocq Require Import Core.
From Verif Require Import Model_Rounding.
Import ListNotations.
Open Scope R_scope.

Section RoundedDistance.
Variables emin prec : Z.
Notation fl := (fl emin prec).
Variables ratio Om Or Ol Ok : R.
(** the order in which jnp.cumsum adds the first entries of an array *)
Variable order : list R -> tree.

(** z_to_E, 69-76; zp1**2, zp1**3 and zp1**4 are lax.integer_pow: x x, x (x x) and (x x)(x x) *)
Definition fl_E (z : R) : R :=
  let zp1 := fl (1 + z) in
  let p2 := fl (zp1 * zp1) in
  let p3 := fl (zp1 * p2) in
  let p4 := fl (p2 * p2) in
  fl (sqrt (fl (fl (fl (Ol + fl (Ok * p2)) + fl (Om * p3)) + fl (Or * p4)))).
(** dDcdz, 78-79 *)
Definition fl_dDcdz (z : R) : R := fl (ratio / fl_E z).

(** quadax.cumulative_trapezoid(y, x=x, initial=0.0), used in 61-63: diff(x) (y[1:] + y[:-1]) / 2,
    then cumsum *)
Fixpoint fl_areas (g : R -> R) (zs : list R) : list R :=
  match zs with
  | x0 :: ((x1 :: _) as r) => fl (fl (fl (x1 - x0) * fl (g x1 + g x0)) / 2) :: fl_areas g r
  | _ => []
  end.
Definition fl_cumsum (l : list R) : list R :=
  map (fun i => fl_sum emin prec (order (firstn i l))) (seq 1 (length l)).
(** _Dc, 61-63 *)
Definition fl_Dc (zs : list R) : list R := 0 :: fl_cumsum (fl_areas fl_dDcdz zs).
(** DL, 113-115 *)
Fixpoint fl_DL_rows (zs Dcs : list R) : list R :=
  match zs, Dcs with
  | z :: zs', d :: ds' => fl (d * fl (1 + z)) :: fl_DL_rows zs' ds'
  | _, _ => []
  end.
Definition fl_DL (zs : list R) : list R := fl_DL_rows zs (fl_Dc zs).

(** jnp.interp: the cell is found by searchsorted(side="right") clipped into the range; a cell
    not wider than np.spacing(eps) gives its left value; outside the range the end values *)
Definition fl_chord (x x0 f0 x1 f1 : R) : R :=
  let df := fl (f1 - f0) in
  let dx := fl (x1 - x0) in
  let delta := fl (x - x0) in
  if Rle_dec (Rabs dx) (bpow radix2 (2 - 2 * prec)) then f0
  else fl (f0 + fl (fl (delta / dx) * df)).
Fixpoint fl_interp_cell (x : R) (pts : list (R * R)) : R :=
  match pts with
  | [] => 0
  | [(x0, f0)] => f0
  | (x0, f0) :: (((x1, f1) :: r) as rest) =>
    match r with
    | [] => fl_chord x x0 f0 x1 f1
    | _ => if Rlt_dec x x1 then fl_chord x x0 f0 x1 f1 else fl_interp_cell x rest
    end
  end.
Definition fl_interp (x : R) (xp fp : list R) : R :=
  if Rlt_dec x (hd 0 xp) then hd 0 fp
  else if Rlt_dec (last xp 0) x then last fp 0
  else fl_interp_cell x (combine xp fp).

(** z_to_Dc and z_to_DL, 98-105 *)
Definition fl_z_to_Dc (zs : list R) (z : R) : R := fl_interp z zs (fl_Dc zs).
Definition fl_z_to_DL (zs : list R) (z : R) : R := fl_interp z zs (fl_DL zs).
End RoundedDistance.
