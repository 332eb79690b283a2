(** Model of the coordinate changes in gwkokab/utils/transformations.py:337-397, over the reals. *)
From Coq Require Import Reals.
Open Scope R_scope.

(** jnp.arctan2(y, x); a zero is +0 *)
Definition atan2 (y x : R) : R :=
  if Rlt_dec 0 x then atan (y / x)
  else if Rlt_dec x 0 then (if Rle_dec 0 y then atan (y / x) + PI else atan (y / x) - PI)
  else if Rlt_dec 0 y then PI / 2 else if Rlt_dec y 0 then - (PI / 2) else 0.

(** polar_to_cart, 337-347 *)
Definition polar_to_cart (r theta : R) : R * R := (r * cos theta, r * sin theta).
(** cart_to_polar, 350-360 *)
Definition cart_to_polar (x y : R) : R * R := (sqrt (x * x + y * y), atan2 y x).
(** spherical_to_cart, 363-377 *)
Definition spherical_to_cart (r theta phi : R) : R * R * R :=
  (r * sin theta * cos phi, r * sin theta * sin phi, r * cos theta).
(** cart_to_spherical, 380-397; at r = 0 the code takes arccos(inf), which is NaN: the value 0
    given here for theta is arbitrary and no theorem uses it *)
Definition cart_to_spherical (x y z : R) : R * R * R :=
  let r := sqrt (x * x + y * y + z * z) in
  let safe_r := if Req_EM_T r 0 then 1 else r in
  (r, if Req_EM_T r 0 then 0 else acos (z / safe_r), atan2 y x).
