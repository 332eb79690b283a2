(** Vocabulary for the importance sampling of the analytical likelihood: multivariate normal
    densities, factors of a covariance, derivatives of a function of a vector. *)
From Coq Require Import Reals List.
From Coquelicot Require Import Coquelicot.
From mathcomp Require Import ssreflect ssrfun ssrbool eqtype ssrnat fintype bigop ssralg matrix.
From Verif Require Import Model_X Spec_X Model_RealRing.
Delimit Scope R_scope with re.
Local Open Scope ring_scope.

Section MVN.
Context {n : nat}.
Notation vec := 'cV[R]_n.
Notation mat := 'M[R]_n.

Definition dot (u v : vec) : R := (u^T *m v) ord0 ord0.
(** x^T A x *)
Definition quadratic (A : mat) (x : vec) : R := dot x (A *m x).

(** density of the normal distribution with mean [mu] and covariance [sigma] *)
Definition normal_density (mu : vec) (sigma : mat) (x : vec) : R :=
  (exp (- (1 / 2) * quadratic (invmx sigma) (x - mu)%R) / sqrt ((2 * PI) ^ n * \det sigma))%re.
(** density of the standard normal distribution on the line *)
Definition std_normal (e : R) : R := (exp (- (1 / 2) * (e * e)) / sqrt (2 * PI))%re.

(** a lower triangular matrix with a positive diagonal *)
Definition cholesky_factor (L : mat) : Prop :=
  (forall i j : 'I_n, (i < j)%N -> L i j = R0) /\ (forall i, Rlt R0 (L i i)).

(** [g] is the gradient of [f] at [x], [H] its Hessian: first and second derivatives along lines *)
Definition line (f : vec -> R) (x v : vec) (t : R) : R := f (x + t *: v).
Definition is_gradient (f : vec -> R) (x g : vec) : Prop := forall v : vec, is_derive (line f x v) R0 (dot g v).
Definition is_hessian (f : vec -> R) (x : vec) (H : mat) : Prop :=
  H^T = H /\ exists g : vec -> vec, (forall y, is_gradient f y (g y))
    /\ forall v : vec, is_derive (fun t : R => dot (g (x + t *: v)) v) R0 (quadratic H v).
(** a polynomial of degree two *)
Definition polynomial2 (f : vec -> R) : Prop :=
  exists (c : R) (b : vec) (A : mat), A^T = A /\ forall x, f x = (c + dot b x + quadratic A x)%re.
End MVN.
