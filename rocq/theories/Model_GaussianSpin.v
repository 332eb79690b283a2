(** Model of GaussianSpinModel, gwkokab/models/spin/_models.py:23-81, and of the parts of numpyro's
    MultivariateNormal it uses.  One event; arguments are finite numbers.  The check of the
    covariance matrix with validate_args is not modelled. *)
From Coq Require Import Reals List.
From Verif Require Import Model_X Model_Transform.
Import ListNotations.
Open Scope R_scope.

(** loc and covariance_matrix, _models.py:71-79 *)
Definition gs_loc (mu_eff mu_p : R) : R * R := (mu_eff, mu_p).
Definition gs_covariance (sigma_eff sigma_p rho : R) : (R * R) * (R * R) :=
  ((sigma_eff ^ 2, rho * sigma_eff * sigma_p), (rho * sigma_eff * sigma_p, sigma_p ^ 2)).

(** jnp.linalg.cholesky of a 2 x 2 matrix: the lower triangle (l11, l21, l22) *)
Definition cholesky2 (m : (R * R) * (R * R)) : X * X * X :=
  let '((a, _), (b, d)) := m in
  let l11 := xsqrt (Fin a) in
  let l21 := xdiv (Fin b) l11 in
  let l22 := xsqrt (xsub (Fin d) (xmul l21 l21)) in
  (l11, l21, l22).
(** solve_triangular(L, (x, y), lower=True) *)
Definition solve2 (l : X * X * X) (v : X * X) : X * X :=
  let '(l11, l21, l22) := l in
  let y1 := xdiv (fst v) l11 in
  (y1, xdiv (xsub (snd v) (xmul l21 y1)) l22).
(** MultivariateNormal.log_prob *)
Definition mvn_log_prob (loc : R * R) (l : X * X * X) (x y : R) : X :=
  let '(l11, _, l22) := l in
  let s := solve2 l (Fin (x - fst loc), Fin (y - snd loc)) in
  let M := xadd (xmul (fst s) (fst s)) (xmul (snd s) (snd s)) in
  let half_log_det := xadd (xln l11) (xln l22) in
  let normalize_term := xadd half_log_det (xmul (Fin (1/2 * 2)) (xln (Fin (2 * PI)))) in
  xsub (xmul (Fin (-1/2)) M) normalize_term.
(** MultivariateNormal.sample: loc + scale_tril @ eps for standard normal eps *)
Definition mvn_sample (loc : R * R) (l : X * X * X) (e1 e2 : R) : X * X :=
  let '(l11, l21, l22) := l in
  (xadd (Fin (fst loc)) (xmul l11 (Fin e1)), xadd (Fin (snd loc)) (xadd (xmul l21 (Fin e1)) (xmul l22 (Fin e2)))).

Section GaussianSpin.
Variables mu_eff sigma_eff mu_p sigma_p rho : R.
(** GaussianSpinModel(...).log_prob([x, y]) and its sample *)
Definition gaussian_spin_log_prob (x y : R) : X :=
  mvn_log_prob (gs_loc mu_eff mu_p) (cholesky2 (gs_covariance sigma_eff sigma_p rho)) x y.
Definition gaussian_spin_sample (e1 e2 : R) : X * X :=
  mvn_sample (gs_loc mu_eff mu_p) (cholesky2 (gs_covariance sigma_eff sigma_p rho)) e1 e2.
End GaussianSpin.
