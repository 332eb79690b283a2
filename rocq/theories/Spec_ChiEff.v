(** Density of the effective spin of two black holes with independent, uniform spin magnitudes and
    isotropic spin directions, from first principles. *)
From Coq Require Import Reals List.
From Coquelicot Require Import Coquelicot.
Import ListNotations.
Open Scope R_scope.

(** The integral of f from a to b, where f may be undefined or unbounded at finitely many points:
    the increase of a continuous antiderivative.  (Unique: see newton_integral_unique.) *)
Definition newton_integral (f : R -> R) (a b v : R) : Prop :=
  exists (Phi : R -> R) (E : list R),
    (forall x, a <= x <= b -> continuous Phi x)
    /\ (forall x, a < x < b -> ~ In x E -> is_derive Phi x (f x))
    /\ v = Phi b - Phi a.

(** Density at z <> 0 of the spin component a * u along the orbital axis, a uniform on (0, amax)
    and u (the cosine of the tilt) uniform on (-1, 1): given a, the component is uniform on
    (-a, a), so the density is the integral over a > |z| of 1/amax * 1/(2a). *)
Definition component_density (amax z : R) : R :=
  if Req_EM_T z 0 then 0
  else if Rlt_dec (Rabs z) amax then RInt (fun a => / amax * / (2 * a)) (Rabs z) amax
  else 0.

(** v is the density at chi of (z1 + q z2) / (1 + q), z1 and z2 independent components: given z2,
    the value chi is reached at z1 = (1 + q) chi - q z2, with Jacobian 1 + q *)
Definition chi_eff_density (amax q chi v : R) : Prop :=
  newton_integral
    (fun z2 => component_density amax z2 * ((1 + q) * component_density amax ((1 + q) * chi - q * z2)))
    (- amax) amax v.

(** the real part of the dilogarithm on the real line *)
Definition dilogarithm (Li2 : R -> R) : Prop :=
  Li2 0 = 0
  /\ (forall x, continuous Li2 x)
  /\ (forall x, x <> 0 -> x <> 1 -> is_derive Li2 x (- ln (Rabs (1 - x)) / x)).
