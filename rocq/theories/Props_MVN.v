(** Properties C111, C112: importance sampling in the analytical likelihood. *)
From Coq Require Import Reals Lra List Lia.
From Coquelicot Require Import Coquelicot.
From mathcomp Require Import ssreflect ssrfun ssrbool eqtype ssrnat seq fintype bigop ssralg matrix.
From Verif Require Import Model_X Spec_X Proofs_X Model_Likelihood Model_Sage Model_MonteCarlo Spec_MonteCarlo Proofs_MonteCarlo Props_MonteCarlo.
From Verif Require Import Model_RealRing Model_MVN Spec_MVN Proofs_MVN.
Import GRing.Theory.
Delimit Scope R_scope with re.
Local Open Scope ring_scope.

Ltac over_R := match goal with |- ?a = ?b => change (@eq R a b) end.
Section Weights.
Context {n : nat}.
Notation vec := 'cV[R]_n.
Notation mat := 'M[R]_n.
Variables (hess : vec -> mat) (grad : vec -> vec) (psd : mat -> bool) (chol : mat -> mat).
Let mu := fit_mean hess grad psd.
Let tril := fit_scale_tril hess psd chol.

(** weight times density of the normal the sample is drawn from
    = population density times density of the event's normal *)
Theorem C111_importance_weights : forall (lp : vec -> X) (mean : vec) (L : mat) (x : vec),
  cholesky_factor L -> cholesky_factor (tril mean L) -> fin_or_ninf (lp x) ->
  let w := log_weight hess grad psd chol lp mean L x in
  fin_or_ninf w
  /\ Rlt 0%re (normal_density (mu mean L) (tril mean L *m (tril mean L)^T) x)
  /\ Rmult (wexp w) (normal_density (mu mean L) (tril mean L *m (tril mean L)^T) x)
     = Rmult (wexp (lp x)) (normal_density mean (L *m L^T) x).
Proof.
  move=> lp mean L x hL hF hl w. have np := normal_pos _ (mu mean L) x hF.
  have s : Rlt 0%re (sqrt (pow (2 * PI) n)) by apply/sqrt_lt_R0/two_pi_pos.
  rewrite /w /log_weight. case E: (lp x) hl => [r| | |] //= _.
  - split=> //. split=> //. rewrite -/mu -/tril.
    have e1 := scaled_density _ mean x hL. have e2 := scaled_density _ (mu mean L) x hF.
    move: (mvn_log_prob_scaled mean L x) (mvn_log_prob_scaled (mu mean L) (tril mean L) x) e1 e2 => a b e1 e2.
    rewrite /Rminus !exp_plus exp_Ropp e1 e2. field. lra.
  - split=> //. split=> //. ring.
Qed.

(** samples: an affine image of independent standard normal draws whose density is that normal *)
Theorem C111_samples : forall (mean : vec) (L : mat) (K : Type) (normal : K -> list vec) key,
  cholesky_factor (tril mean L) ->
  Forall2 (fun e x => x = mu mean L + tril mean L *m e
      /\ Rmult (normal_density (mu mean L) (tril mean L *m (tril mean L)^T) x) (\det (tril mean L))
         = \prod_i std_normal (e i ord0))
    (normal key) (fit_samples hess grad psd chol K normal mean L key).
Proof.
  move=> mean L K normal key h. rewrite /fit_samples. elim: (normal key) => [|e l IH] /=; constructor=> //.
  split=> //. rewrite -/mu -/tril. have p := chol_det_pos _ h. have q := two_pi_pos n.
  have s : Rlt 0%re (sqrt (pow (2 * PI) n)) by apply/sqrt_lt_R0.
  rewrite /normal_density sqrt_cov // -mahalanobis_quadratic; last exact: chol_unit.
  rewrite /mahalanobis mvn_sample_inv; last exact: chol_unit.
  have E : forall m (f : 'I_m -> R), \prod_i std_normal (f i) = Rdiv (exp (- (1 / 2) * (\sum_i (f i * f i)))) (sqrt (pow (2 * PI) m)).
  { elim=> [|m IHm] f.
    - rewrite !big_ord0 /=. rewrite Rmult_0_r exp_0 sqrt_1. rewrite /Rdiv Rinv_1 Rmult_1_r. by [].
    - rewrite !big_ord_recl IHm addE !mulE. rewrite /std_normal.
      have p1 := PI_RGT_0. have p2 := two_pi_pos m.
      rewrite Rmult_plus_distr_l exp_plus -[pow (2 * PI) m.+1]/(Rmult (2 * PI) (pow (2 * PI) m)) (sqrt_mult (2 * PI) (pow (2 * PI) m)); try lra.
      have s1 : Rlt 0%re (sqrt (2 * PI)) by apply: sqrt_lt_R0; have := PI_RGT_0; lra.
      have s2 : Rlt 0%re (sqrt (pow (2 * PI) m)) by apply/sqrt_lt_R0/two_pi_pos.
      set sq := \sum_(i < m) _. over_R. rewrite -/sq. field. lra. }
  have cancel : forall a s d : R, s <> 0%re -> d <> 0%re -> Rmult (a / (s * d)) d = Rdiv a s by move=> *; field.
  rewrite E cancel //; lra.
Qed.

(** without a usable fit the samples come from the event's own normal and the weight is the
    population density *)
Theorem C111_fallback : forall (lp : vec -> X) (mean : vec) (L : mat) (x : vec),
  psd (fit_covariance_matrix hess mean L) = false -> fin_or_ninf (lp x) ->
  mu mean L = mean /\ tril mean L = L /\ log_weight hess grad psd chol lp mean L x = lp x.
Proof.
  move=> lp mean L x h hl.
  have e1 : mu mean L = mean by rewrite /mu /fit_mean /is_psd h addr0.
  have e2 : tril mean L = L by rewrite /tril /fit_scale_tril /is_psd h.
  split=> //; split=> //. rewrite /log_weight -/mu -/tril e1 e2.
  case: (lp x) hl => [r| | |] //= _. congr Fin. ring.
Qed.

(** a population density that is the exponential of a polynomial of degree two: the product with the
    event's normal is a multiple of the fitted normal, and all weights equal that multiple *)
Lemma exact_weights (f : vec -> R) (mean : vec) (L : mat) :
  polynomial2 f -> is_gradient f mean (grad mean) -> is_hessian f mean (hess mean) ->
  cholesky_factor L -> psd (fit_covariance_matrix hess mean L) = true ->
  cholesky_factor (tril mean L) -> tril mean L *m (tril mean L)^T = fit_covariance_matrix hess mean L ->
  exists w : R, forall x, log_weight hess grad psd chol (fun y => Fin (f y)) mean L x = Fin w.
Proof.
  move=> hf hg hh hL hp hF hc.
  set P := fit_precision_matrix hess mean L. set S := invmx (L *m L^T).
  have uC : fit_covariance_matrix hess mean L \in unitmx.
  { rewrite -hc unitmx_mul unitmx_tr chol_unit //. }
  have uP : P \in unitmx by rewrite -unitmx_inv.
  have eP : invmx (tril mean L *m (tril mean L)^T) = P by rewrite hc /fit_covariance_matrix invmxK.
  have sS : S^T = S by rewrite /S trmx_inv trmx_mul trmxK.
  have sH : (hess mean)^T = hess mean by case: hh.
  have sP : P^T = P by rewrite /P /fit_precision_matrix /precision_matrix linearB /= -/S sS sH.
  have em : mu mean L = mean + invmx P *m grad mean.
  { by rewrite /mu /fit_mean /safe_fit_covariance_matrix /is_psd hp. }
  set g := grad mean. set k := invmx P *m g.
  have Pk : P *m k = g by rewrite /k mulmxA mulmxV // mul1mx.
  exists (f mean + 1 / 2 * dot k g + ln (\det (tril mean L)) - ln (\det L))%re => x.
  rewrite /log_weight /= -/mu -/tril. congr Fin.
  rewrite /mvn_log_prob_scaled !mahalanobis_quadratic; try exact: chol_unit.
  rewrite !chol_logabsdet // eP em -/k -/S (poly_taylor f mean g (hess mean)) //.
  have -> : x - (mean + k) = (x - mean) + (IZR (-1)) *: k.
  { rewrite opprD addrA. congr (_ + _). by rewrite -scaleN1r. }
  rewrite (quad_expand P) //. move: (x - mean) => d.
  have -> : quadratic P k = dot k g by rewrite /quadratic Pk.
  have -> : dot (P *m d) k = dot g d by rewrite -{1}sP -dot_mul Pk dotC.
  have -> : quadratic P d = (quadratic S d - quadratic (hess mean) d)%re.
  { by rewrite /quadratic /P /fit_precision_matrix /precision_matrix -/S mulmxBl dotDr dotNr. }
  field.
Qed.
Theorem C112_exact_for_gaussians : forall (f : vec -> R) (mean : vec) (L : mat),
  polynomial2 f -> is_gradient f mean (grad mean) -> is_hessian f mean (hess mean) ->
  cholesky_factor L -> psd (fit_covariance_matrix hess mean L) = true ->
  cholesky_factor (tril mean L) -> tril mean L *m (tril mean L)^T = fit_covariance_matrix hess mean L ->
  exists w : R,
    (forall x, Rmult (exp (f x)) (normal_density mean (L *m L^T) x)
               = Rmult (exp w) (normal_density (mu mean L) (tril mean L *m (tril mean L)^T) x))
    /\ forall (K : Type) (split : K -> K * K) (normal : K -> list vec) error_sq n_max_steps key,
       (1 <= n_max_steps)%coq_nat -> (forall k, (2 <= List.length (normal k))%coq_nat) ->
       let weights := event_log_weights hess grad psd chol (fun y => Fin (f y)) K normal mean L in
       let result := event_loop split weights error_sq n_max_steps key in
       log_estimate_of result = Fin w /\ error_of result = Fin 0%re.
Proof.
  move=> f mean L hf hg hh hL hp hF hc.
  have [w hw] := exact_weights f mean L hf hg hh hL hp hF hc. exists w. split.
  - move=> x. have [_ [np e]] := C111_importance_weights (fun y => Fin (f y)) mean L x hL hF I.
    move: e. rewrite hw /= => e. by rewrite -e.
  - move=> K split normal err nmax key hn hk weights result.
    have cw : forall k, List.Forall (eq (Fin w)) (weights k) /\ List.length (weights k) = List.length (normal k).
    { move=> k. rewrite /weights /event_log_weights /fit_samples. split; last by rewrite !List.map_length.
      apply/List.Forall_forall => y /List.in_map_iff [x [<- _]]. by rewrite hw. }
    have fw : forall k, List.Forall fin_or_ninf (weights k) /\ (1 < List.length (weights k))%coq_nat.
    { move=> k. have [c1 c2] := cw k. split; last by rewrite c2.
      apply: (List.Forall_impl _ _ c1) => y <-. exact: I. }
    have [m [hm E]] := C03_event_loop_pools_its_batches K split weights err nmax key hn fw.
    have hp1 : List.Forall (eq (Fin w)) (pooled split weights m key).
    { rewrite /pooled. apply/List.Forall_concat. apply/List.Forall_forall => y /List.in_map_iff [k [<- _]]. by case: (cw k). }
    have hp2 : (1 < List.length (pooled split weights m key))%coq_nat.
    { rewrite /pooled. case: m hm {E hp1} => [|m] hm; first by lia. rewrite /= List.app_length.
      have := proj2 (fw (split key).2). lia. }
    have [c1 c2] := constant_sample w _ hp2 hp1.
    by rewrite /log_estimate_of /error_of /result E /= c1 c2.
Qed.
End Weights.
Print Assumptions C111_importance_weights.
Print Assumptions C111_samples.
Print Assumptions C111_fallback.
Print Assumptions C112_exact_for_gaussians.

(** a standard normal population and an event with unit covariance, in any number of dimensions *)
Section Example.
Variable n : nat.
Definition ex_f (x : 'cV[R]_n) : R := Rmult (- (1 / 2)) (dot x x).
Definition ex_grad (x : 'cV[R]_n) : 'cV[R]_n := - x.
Definition ex_hess (_ : 'cV[R]_n) : 'M[R]_n := - 1%:M.
Definition ex_chol (_ : 'M[R]_n) : 'M[R]_n := (sqrt (/ 2)%re)%:M.
Lemma scalar_chol (a : R) : Rlt 0%re a -> cholesky_factor (a%:M : 'M[R]_n).
Proof.
  move=> h; split=> [i j hij|i]; rewrite mxE; last by rewrite eqxx mulr1n.
  case: eqP hij => [->|_ _]; [by rewrite ltnn|by rewrite mulr0n].
Qed.
Lemma ex_poly : exists b (A : 'M[R]_n), A^T = A /\ (b = 0 /\ A = (- (1 / 2))%re%:M) /\ forall x, ex_f x = (0 + dot b x + quadratic A x)%re.
Proof.
  exists 0, ((- (1 / 2))%re%:M). split; first exact: tr_scalar_mx. split=> // x.
  rewrite dot0l /quadratic mul_scalar_mx dotZr /ex_f. ring.
Qed.
Lemma ex_gradient y : is_gradient ex_f y (ex_grad y).
Proof.
  have [b [A [s [[eb eA] h]]]] := ex_poly. move=> v.
  apply: (is_derive_ext (fun t : R => ex_f y + t * (dot (b + (IZR 2) *: (A *m y)) v) + t * t * quadratic A v)%re).
  - move=> t. by rewrite (line_poly 0%re b A).
  - have -> : dot (ex_grad y) v = dot (b + (IZR 2) *: (A *m y)) v.
    { rewrite eb add0r eA mul_scalar_mx !dotZl /ex_grad dotNl. field. }
    exact: derive2.
Qed.
Example C112_nonvacuous (mean : 'cV[R]_n) :
  let L := 1%:M : 'M[R]_n in
  let psd := fun _ : 'M[R]_n => true in
  let tril := fit_scale_tril ex_hess psd ex_chol mean L in
  polynomial2 ex_f /\ is_gradient ex_f mean (ex_grad mean) /\ is_hessian ex_f mean (ex_hess mean)
  /\ cholesky_factor L /\ cholesky_factor tril /\ tril *m tril^T = fit_covariance_matrix ex_hess mean L.
Proof.
  move=> L psd tril.
  have p : Rlt 0%re (sqrt (/ 2)%re) by apply: sqrt_lt_R0; lra.
  split; [|split; [exact: ex_gradient|split; [|split; [|split]]]].
  - have [b [A [s [_ h]]]] := ex_poly. by exists 0%re, b, A.
  - split; first by rewrite /ex_hess linearN /= tr_scalar_mx.
    exists ex_grad. split; first exact: ex_gradient. move=> v.
    apply: (is_derive_ext (fun t : R => dot (ex_grad mean) v + t * (- dot v v))%re).
    + move=> t. rewrite /ex_grad opprD !dotDl !dotNl dotZl. over_R. ring.
    + have -> : quadratic (ex_hess mean) v = (- dot v v)%re by rewrite /quadratic /ex_hess mulNmx mul1mx dotNr.
      exact: derive1.
  - apply: scalar_chol. rewrite /GRing.one /=. lra.
  - exact: scalar_chol.
  - rewrite /tril /fit_scale_tril /= /ex_chol tr_scalar_mx -scalar_mxM /fit_covariance_matrix.
    apply: (proj2 (inv_unique _ _ _)).
    rewrite /fit_precision_matrix /precision_matrix /ex_hess trmx1 mulmx1 invmx1 opprK -raddfD /= -scalar_mxM.
    congr (_%:M). rewrite mulE mulE addE sqrt_sqrt; [|lra]. rewrite /GRing.one /=. field.
Qed.
Example C111_nonvacuous (mean x : 'cV[R]_n) :
  let tril := fit_scale_tril ex_hess (fun _ => true) ex_chol mean 1%:M in
  cholesky_factor (1%:M : 'M[R]_n) /\ cholesky_factor tril /\ fin_or_ninf (Fin (ex_f x)).
Proof. have [_ [_ [_ [h1 [h2 _]]]]] := C112_nonvacuous mean. by []. Qed.
End Example.
