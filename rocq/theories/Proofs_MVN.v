(** Lemmas on normal densities for the importance sampling of the analytical likelihood. *)
From Coq Require Import Reals Lra List.
From Coquelicot Require Import Coquelicot.
From mathcomp Require Import ssreflect ssrfun ssrbool eqtype ssrnat seq fintype bigop ssralg matrix.
From Verif Require Import Model_X Spec_X Proofs_X Model_RealRing Model_MVN Spec_MVN.
Import GRing.Theory.
Delimit Scope R_scope with re.
Local Open Scope ring_scope.

Lemma addE (a b : R) : a + b = Rplus a b. Proof. by []. Qed.
Lemma mulE (a b : R) : a * b = Rmult a b. Proof. by []. Qed.
Lemma oppE (a : R) : - a = Ropp a. Proof. by []. Qed.

Section Lemmas.
Context {n : nat}.
Notation vec := 'cV[R]_n.
Notation mat := 'M[R]_n.

Lemma inv_unique (A B : mat) : A *m B = 1%:M -> A \in unitmx /\ B = invmx A.
Proof.
  move=> h. have [uA uB] := mulmx1_unit h. split=> //.
  by rewrite -[B]mul1mx -(mulVmx uA) -mulmxA h mulmx1.
Qed.
Lemma sum_ln (f : 'I_n -> R) : (forall i, Rlt R0 (f i)) ->
  Rlt R0 (\prod_i f i) /\ \sum_i ln (Rabs (f i)) = ln (\prod_i f i).
Proof.
  move=> H. apply: (big_ind2 (fun (s p : R) => Rlt R0 p /\ s = ln p)).
  - split; [exact: Rlt_0_1|by rewrite ln_1].
  - move=> s1 p1 s2 p2 [h1 ->] [h2 ->]; split; [exact: Rmult_lt_0_compat|].
    rewrite addE mulE. by rewrite ln_mult.
  - move=> i _; split=> //. by rewrite Rabs_pos_eq //; apply: Rlt_le.
Qed.
Lemma chol_det (L : mat) : cholesky_factor L -> \det L = \prod_i L i i.
Proof. move=> [h _]. apply: det_trig. apply/is_trig_mxP => i j hij. exact: h. Qed.
Lemma chol_det_pos (L : mat) : cholesky_factor L -> Rlt R0 (\det L).
Proof. move=> h. rewrite chol_det //. by apply: (proj1 (sum_ln _ _)); case: h. Qed.
Lemma chol_unit (L : mat) : cholesky_factor L -> L \in unitmx.
Proof. move=> h. rewrite unitmxE. apply/eqrP => e. have := chol_det_pos _ h. rewrite e. exact: Rlt_irrefl. Qed.
Lemma chol_logabsdet (L : mat) : cholesky_factor L -> tri_logabsdet L = ln (\det L).
Proof. move=> h. rewrite chol_det // /tri_logabsdet. apply: (proj2 (sum_ln (fun i => L i i) _)). by case: h. Qed.

Lemma dotE (u v : vec) : dot u v = \sum_i (u i ord0 * v i ord0).
Proof. rewrite /dot mxE. apply: eq_bigr => i _. by rewrite mxE. Qed.
Lemma dotC (u v : vec) : dot u v = dot v u.
Proof. rewrite !dotE. apply: eq_bigr => i _. exact: mulrC. Qed.
Lemma dotDl (u v w : vec) : dot (u + v) w = (dot u w + dot v w)%re.
Proof. by rewrite /dot linearD /= mulmxDl mxE. Qed.
Lemma dotDr (u v w : vec) : dot u (v + w) = (dot u v + dot u w)%re.
Proof. by rewrite /dot mulmxDr mxE. Qed.
Lemma dotNl (u v : vec) : dot (- u) v = (- dot u v)%re.
Proof. by rewrite /dot linearN /= mulNmx mxE. Qed.
Lemma dotNr (u v : vec) : dot u (- v) = (- dot u v)%re.
Proof. by rewrite /dot mulmxN mxE. Qed.
Lemma dotZl (a : R) (u v : vec) : dot (a *: u) v = (a * dot u v)%re.
Proof. by rewrite /dot linearZ /= -scalemxAl mxE. Qed.
Lemma dotZr (a : R) (u v : vec) : dot u (a *: v) = (a * dot u v)%re.
Proof. by rewrite /dot -scalemxAr mxE. Qed.
Lemma dot_mul (A : mat) (u v : vec) : dot u (A *m v) = dot (A^T *m u) v.
Proof. by rewrite /dot trmx_mul trmxK mulmxA. Qed.
Lemma dot0l (u : vec) : dot 0 u = R0.
Proof. by rewrite -(scale0r 0) dotZl Rmult_0_l. Qed.

Lemma inv_cov (L : mat) : L \in unitmx -> invmx (L *m L^T) = (invmx L)^T *m invmx L.
Proof.
  move=> u. symmetry. apply: (proj2 (inv_unique _ _ _)).
  rewrite mulmxA -(mulmxA L) -trmx_mul mulVmx // trmx1 mulmx1. exact: mulmxV.
Qed.
Lemma mahalanobis_quadratic (L : mat) (d : vec) : L \in unitmx ->
  mahalanobis L d = quadratic (invmx (L *m L^T)) d.
Proof.
  move=> u. rewrite /mahalanobis /quadratic inv_cov // -mulmxA dot_mul trmxK dotE. by [].
Qed.
Lemma two_pi_pos k : Rlt R0 (pow (2 * PI) k).
Proof. apply: pow_lt. have := PI_RGT_0. lra. Qed.
Lemma det_cov (L : mat) : \det (L *m L^T) = Rmult (\det L) (\det L).
Proof. by rewrite det_mulmx det_tr. Qed.
Lemma sqrt_cov (L : mat) : cholesky_factor L ->
  sqrt (pow (2 * PI) n * \det (L *m L^T)) = Rmult (sqrt (pow (2 * PI) n)) (\det L).
Proof.
  move=> h. have p := chol_det_pos _ h. rewrite det_cov sqrt_mult.
  - rewrite sqrt_square //. lra.
  - have := two_pi_pos n. lra.
  - apply: Rmult_le_pos; lra.
Qed.
(** the scaled density is the density without the factor (2 pi)^(-n/2) *)
Lemma scaled_density (L : mat) (loc x : vec) : cholesky_factor L ->
  exp (mvn_log_prob_scaled loc L x) = Rmult (normal_density loc (L *m L^T) x) (sqrt (pow (2 * PI) n)).
Proof.
  move=> h. have p := chol_det_pos _ h. have q := two_pi_pos n.
  have s : Rlt R0 (sqrt (pow (2 * PI) n)) by exact: sqrt_lt_R0.
  rewrite /mvn_log_prob_scaled /normal_density sqrt_cov // mahalanobis_quadratic; last exact: chol_unit.
  rewrite chol_logabsdet // /Rminus exp_plus exp_Ropp exp_ln //. field. lra.
Qed.
Lemma normal_pos (L : mat) (loc x : vec) : cholesky_factor L -> Rlt R0 (normal_density loc (L *m L^T) x).
Proof.
  move=> h. rewrite /normal_density. apply: Rdiv_lt_0_compat; first exact: exp_pos.
  rewrite sqrt_cov //. apply: Rmult_lt_0_compat; [exact/sqrt_lt_R0/two_pi_pos|exact: chol_det_pos].
Qed.
Lemma mvn_sample_inv (L : mat) (loc e : vec) : L \in unitmx -> invmx L *m (mvn_sample loc L e - loc) = e.
Proof. move=> u. by rewrite /mvn_sample addrC addrA addNr add0r mulmxA mulVmx // mul1mx. Qed.

Lemma scaleAr (t : R) (A : mat) (v : vec) : A *m (t *: v) = t *: (A *m v).
Proof. by rewrite -scalemxAr. Qed.
Lemma scaleAl (t : R) (A : mat) (v : vec) : (t *: A) *m v = t *: (A *m v).
Proof. by rewrite -scalemxAl. Qed.
(** ** polynomials of degree two *)
Lemma dot_ext (u v : vec) : (forall w, dot u w = dot v w) -> u = v.
Proof.
  move=> h. apply/matrixP => i j. rewrite (ord1 j).
  have d (z : vec) : dot z (delta_mx i ord0) = z i ord0.
  { rewrite dotE (bigD1 i) //= mxE !eqxx mulr1 big1 ?addr0 // => k hk. by rewrite mxE (negbTE hk) mulr0. }
  by rewrite -(d u) -(d v).
Qed.
Lemma quad_expand (A : mat) (x v : vec) (t : R) : A^T = A ->
  quadratic A (x + t *: v) = (quadratic A x + t * (2 * dot (A *m x) v) + t * t * quadratic A v)%re.
Proof.
  move=> s. rewrite /quadratic mulmxDr scaleAr !dotDl !dotDr !dotZl !dotZr.
  rewrite (dot_mul A x v) s (dotC v (A *m x)). ring.
Qed.
Lemma quad_sym_ext (A B : mat) : A^T = A -> B^T = B -> (forall v, quadratic A v = quadratic B v) -> A = B.
Proof.
  move=> sA sB h.
  have hb u v : dot (A *m u) v = dot (B *m u) v.
  { have := h (u + 1%R *: v). rewrite !quad_expand // !h. set a := dot _ _; set b := dot _ _. move=> e.
    have : (1 * (2 * a) = 1 * (2 * b))%re by move: e; rewrite /GRing.one /=; lra. lra. }
  apply/matrixP => i j.
  have d (M : mat) : M i j = (M *m (delta_mx j ord0 : vec)) i ord0.
  { rewrite mxE (bigD1 j) //= mxE !eqxx mulr1 big1 ?addr0 // => k hk. by rewrite mxE (negbTE hk) mulr0. }
  rewrite (d A) (d B). have -> : A *m (delta_mx j ord0 : vec) = B *m (delta_mx j ord0 : vec) by apply: dot_ext => w; exact: hb.
  by [].
Qed.
Lemma line_poly (c : R) (b : vec) (A : mat) (x v : vec) (f : vec -> R) : A^T = A ->
  (forall x, f x = (c + dot b x + quadratic A x)%re) ->
  forall t, line f x v t = (f x + t * (dot (b + (IZR 2) *: (A *m x)) v) + t * t * quadratic A v)%re.
Proof.
  move=> s h t. rewrite /line !h quad_expand // dotDr dotZr dotDl dotZl. ring.
Qed.
Lemma derive2 (a k q : R) : is_derive (fun t : R => a + t * k + t * t * q)%re R0 k.
Proof. auto_derive; [by []|]. ring. Qed.
Lemma derive1 (a k : R) : is_derive (fun t : R => a + t * k)%re R0 k.
Proof. auto_derive; [by []|]. ring. Qed.
Lemma poly_gradient (c : R) (b : vec) (A : mat) (f : vec -> R) : A^T = A ->
  (forall x, f x = (c + dot b x + quadratic A x)%re) ->
  forall x g, is_gradient f x g -> g = b + (IZR 2) *: (A *m x).
Proof.
  move=> s h x g hg. apply: dot_ext => v.
  have h1 := is_derive_unique _ _ _ (hg v).
  have h2 : is_derive (line f x v) R0 (dot (b + (IZR 2) *: (A *m x)) v).
  { apply: (is_derive_ext (fun t : R => f x + t * (dot (b + (IZR 2) *: (A *m x)) v) + t * t * quadratic A v)%re).
    - move=> t. by rewrite (line_poly c b A).
    - exact: derive2. }
  by rewrite -h1 (is_derive_unique _ _ _ h2).
Qed.
Lemma poly_hessian (c : R) (b : vec) (A : mat) (f : vec -> R) : A^T = A ->
  (forall x, f x = (c + dot b x + quadratic A x)%re) ->
  forall x H, is_hessian f x H -> H = (IZR 2) *: A.
Proof.
  move=> s h x H [sH [g [hg hd]]]. apply: quad_sym_ext => //.
  { by rewrite linearZ /= s. }
  move=> v.
  have h1 := is_derive_unique _ _ _ (hd v).
  have h2 : is_derive (fun t : R => dot (g (x + t *: v)) v) R0 (quadratic ((IZR 2) *: A) v).
  { apply: (is_derive_ext (fun t : R => dot (b + (IZR 2) *: (A *m x)) v + t * (2 * dot (A *m v) v))%re).
    - move=> t. rewrite (poly_gradient c b A f s h _ _ (hg (x + t *: v))).
      rewrite mulmxDr scaleAr scalerDr !dotDl !dotZl.
      match goal with |- ?a = ?b => change (@eq R a b) end. ring.
    - have -> : quadratic ((IZR 2) *: A) v = (2 * dot (A *m v) v)%re by rewrite /quadratic scaleAl dotZr (dotC v).
      exact: derive1. }
  by rewrite -h1 (is_derive_unique _ _ _ h2).
Qed.
(** a polynomial of degree two is its Taylor polynomial *)
Lemma poly_taylor (f : vec -> R) (m g : vec) (H : mat) : polynomial2 f -> is_gradient f m g -> is_hessian f m H ->
  forall x, f x = (f m + dot g (x - m)%R + 1 / 2 * quadratic H (x - m)%R)%re.
Proof.
  move=> [c [b [A [s h]]]] hg hh x.
  rewrite (poly_gradient c b A f s h m g hg) (poly_hessian c b A f s h m H hh).
  have e : x = m + 1%R *: (x - m) by rewrite scale1r addrC -addrA addNr addr0.
  rewrite {1}e -/(line f m (x - m) 1%R) (line_poly c b A) // /quadratic scaleAl dotZr.
  rewrite /GRing.one /=. field.
Qed.
End Lemmas.
