(** Joint density of the effective spin and the effective precession spin of two black holes with independent, uniform
    spin magnitudes and isotropic spin directions, from first principles; and the complex dilogarithm. *)
From Coq Require Import Reals.
From Coquelicot Require Import Coquelicot.
From Verif Require Import Spec_ChiEff Model_JointSpin.
Open Scope R_scope.

(** Density of (z, rho), the components of a spin along the orbital axis and in the orbital plane: the magnitude a is
    uniform on (0, amax), the cosine u of the tilt is uniform on (-1, 1), z = a u and rho = a sqrt (1 - u^2), and the
    Jacobian of (z, rho) with respect to (a, u) is (z^2 + rho^2) / rho. *)
Definition spin_density (amax z rho : R) : R :=
  if Rlt_dec (z ^ 2 + rho ^ 2) (amax ^ 2) then / (2 * amax) * (rho / (z ^ 2 + rho ^ 2)) else 0.
(** density of z, when rho is at most r *)
Definition spin_density_below (amax z r : R) : R := RInt (spin_density amax z) 0 r.

(** v is the density at (chi, chi_p) of chi_eff = (z1 + q z2) / (1 + q) and
    chi_p = max (rho1, q (3 + 4 q) / (4 + 3 q) rho2), for q > 0.  Either rho1 = chi_p and rho2 is at most
    r2 = chi_p (4 + 3 q) / (q (3 + 4 q)), or rho2 = r2 and rho1 is at most chi_p.  In the first case the value chi is
    reached at z1 = (1 + q) chi - q z2 with Jacobian 1 + q, in the second at z2 = ((1 + q) chi - z1) / q with Jacobian
    (1 + q) / q, and the Jacobian of r2 is r2 / chi_p. *)
Definition chi_eff_chi_p_density (amax q chi chi_p v : R) : Prop :=
  let r2 := chi_p * (4 + 3 * q) / (q * (3 + 4 * q)) in
  exists v1 v2, v = v1 + v2
  /\ newton_integral
       (fun z2 => spin_density_below amax z2 r2 * ((1 + q) * spin_density amax ((1 + q) * chi - q * z2) chi_p))
       (- amax) amax v1
  /\ newton_integral
       (fun z1 => spin_density_below amax z1 chi_p
                  * ((1 + q) / q * (r2 / chi_p) * spin_density amax (((1 + q) * chi - z1) / q) r2))
       (- amax) amax v2.

(** derivative at t of a complex number that depends on a real parameter *)
Definition path_derive (w : R -> C) (t : R) (l : C) : Prop :=
  is_derive (fun s => fst (w s)) t (fst l) /\ is_derive (fun s => snd (w s)) t (snd l).
(** the dilogarithm off its cut, the real numbers from 1 on: Li2' (w) = - log (1 - w) / w, along any path *)
Definition complex_dilogarithm (Li2 : C -> C) : Prop :=
  Li2 (RtoC 0) = RtoC 0
  /\ (forall w t l, path_derive w t l -> w t <> RtoC 0 -> ~ (snd (w t) = 0 /\ 1 <= fst (w t)) ->
        path_derive (fun s => Li2 (w s)) t (Cmult (Cdiv (Copp (clog (Cminus (RtoC 1) (w t)))) (w t)) l))
  /\ (forall w t l, path_derive w t l -> w t = RtoC 0 -> path_derive (fun s => Li2 (w s)) t l).
