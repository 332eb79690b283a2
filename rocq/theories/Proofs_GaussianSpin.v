(** Lemmas on the bivariate normal. *)
From Coq Require Import Reals Lra.
From Coquelicot Require Import Coquelicot.
From Verif Require Import Model_X Spec_X Proofs_X Model_Gauss Proofs_Gauss Model_Transform Model_GaussianSpin Spec_GaussianSpin.
Open Scope R_scope.

(** improper integral from an antiderivative with its limits *)
Lemma over_line_antiderivative (F f : R -> R) (v : R) :
  (forall x, is_derive F x (f x)) -> (forall x, continuous f x) ->
  (forall eps, 0 < eps -> exists B, forall x, B < x -> Rabs (F x - v) < eps /\ Rabs (F (- x)) < eps) ->
  over_line f v.
Proof.
  intros HD Hc Hl P [eps HP]. pose proof (cond_pos eps) as He.
  destruct (Hl (eps / 2) ltac:(lra)) as [B HB].
  apply (Filter_prod _ _ _ (fun a => a < - B) (fun b => B < b)).
  - exists (- B). auto.
  - exists B. auto.
  - intros a b Ha Hb. cbn [fst snd]. exists (F b - F a). split.
    + apply (is_RInt_derive F f a b); intros; auto.
    + apply HP. change (Rabs (F b - F a - v) < eps).
      destruct (HB b Hb) as [H1 _]. destruct (HB (- a) ltac:(lra)) as [_ H2]. rewrite Ropp_involutive in H2.
      replace (F b - F a - v) with ((F b - v) + - F a) by ring.
      eapply Rle_lt_trans; [apply Rabs_triang|]. rewrite Rabs_Ropp. lra.
Qed.
Lemma over_line_ext (f g : R -> R) v : (forall x, f x = g x) -> over_line f v -> over_line g v.
Proof.
  intros H. apply is_RInt_gen_ext. apply (Filter_prod _ _ _ (fun _ => True) (fun _ => True)).
  - exists 0. auto.
  - exists 0. auto.
  - intros a b _ _ x _. apply H.
Qed.

Lemma phi_derive x : is_derive phi x (- x * phi x).
Proof. unfold phi. auto_derive; [auto|]. pose proof sqrt_2PI_pos. unfold Rdiv. set (e := exp _). field. lra. Qed.

(** the antiderivative of a quadratic times the standard normal density *)
Definition quad_F (A B C u : R) : R := (A + C) * ndtr u - (B + C * u) * phi u.
Lemma quad_derive A B C u : is_derive (quad_F A B C) u ((A + B * u + C * (u * u)) * phi u).
Proof.
  unfold quad_F. evar_last.
  - apply (is_derive_minus (fun u => (A + C) * ndtr u) (fun u => (B + C * u) * phi u)).
    + apply (is_derive_scal ndtr u (A + C) (phi u)). apply ndtr_derive.
    + apply (is_derive_mult (fun u => B + C * u) phi u C (- u * phi u)).
      * auto_derive; [auto|ring].
      * apply phi_derive.
      * intros. apply Rmult_comm.
  - unfold minus, plus, opp, mult; cbn. unfold mult; cbn. ring.
Qed.
Lemma exp_tail u : 1 <= u -> exp (- (u * u / 2)) <= 2 / u /\ u * exp (- (u * u / 2)) <= 2 / u.
Proof.
  intros Hu. assert (E : exp (- (u * u / 2)) <= 2 / (u * u)).
  { rewrite exp_Ropp. apply Rle_trans with (/ (u * u / 2)); [|apply Req_le; field; lra].
    assert (0 < u * u) by nra. apply Rinv_le_contravar; [lra|]. left. eapply Rlt_le_trans; [|left; apply exp_ineq1; lra]. lra. }
  assert (I : 0 < / u) by (apply Rinv_0_lt_compat; lra). assert (I1 : / u <= 1) by (rewrite <- Rinv_1; apply Rinv_le_contravar; lra).
  replace (2 / (u * u)) with (2 / u * / u) in E by (field; lra). split.
  - eapply Rle_trans; [exact E|]. rewrite <- (Rmult_1_r (2 / u)) at 2. apply Rmult_le_compat_l; [|exact I1]. unfold Rdiv. lra.
  - apply Rle_trans with (u * (2 / u * / u)); [apply Rmult_le_compat_l; lra|]. apply Req_le. field. lra.
Qed.
Lemma phi_le u : 0 <= phi u <= exp (- (u * u / 2)).
Proof.
  split; [left; apply phi_pos|]. unfold phi. apply Rle_div_l; [apply sqrt_2PI_pos|].
  rewrite <- (Rmult_1_r (exp _)) at 1. apply Rmult_le_compat_l; [left; apply exp_pos|].
  rewrite <- sqrt_1. apply sqrt_le_1_alt. pose proof PI2_1. lra.
Qed.
Lemma quad_tail A B C u : 1 <= u ->
  Rabs (quad_F A B C u - (A + C)) <= (Rabs (A + C) + Rabs B + Rabs C) * (2 / u)
  /\ Rabs (quad_F A B C (- u)) <= (Rabs (A + C) + Rabs B + Rabs C) * (2 / u).
Proof.
  intros Hu. destruct (exp_tail u Hu) as [E1 E2]. destruct (phi_le u) as [P1 P2]. pose proof (ndtr_bounds u) as NB.
  pose proof (ndtr_tail u ltac:(lra)) as NT. set (e := exp (- (u * u / 2))) in *. set (t := 2 / u) in *.
  assert (U : u * phi u <= t) by (eapply Rle_trans; [apply Rmult_le_compat_l; [lra|exact P2]|exact E2]).
  assert (U0 : 0 <= u * phi u) by (apply Rmult_le_pos; lra).
  assert (G : forall a b c x y z, Rabs x <= t -> Rabs y <= t -> Rabs z <= t -> Rabs (a * x + b * y + c * z) <= (Rabs a + Rabs b + Rabs c) * t).
  { intros a b c x y z Hx Hy Hz. eapply Rle_trans; [apply Rabs_triang|]. rewrite !Rmult_plus_distr_r.
    apply Rplus_le_compat; [eapply Rle_trans; [apply Rabs_triang|]; apply Rplus_le_compat|]; rewrite Rabs_mult; apply Rmult_le_compat_l; auto; apply Rabs_pos. }
  unfold quad_F. split.
  - replace ((A + C) * ndtr u - (B + C * u) * phi u - (A + C)) with ((A + C) * (ndtr u - 1) + B * (- phi u) + C * (- (u * phi u))) by ring.
    apply G; rewrite ?Rabs_Ropp; [rewrite Rabs_left1 by lra; lra| |]; rewrite Rabs_pos_eq by lra; lra.
  - rewrite ndtr_opp, phi_even.
    replace ((A + C) * (1 - ndtr u) - (B + C * - u) * phi u) with ((A + C) * (1 - ndtr u) + B * (- phi u) + C * (u * phi u)) by ring.
    apply G; rewrite ?Rabs_Ropp; rewrite Rabs_pos_eq by lra; lra.
Qed.

(** a quadratic in the standardised coordinate, averaged over a normal density *)
Lemma quad_over_line A B C loc s : 0 < s ->
  over_line (fun x => let u := (x - loc) / s in (A + B * u + C * (u * u)) * norm_pdf x loc s) (A + C).
Proof.
  intros Hs. apply (over_line_antiderivative (fun x => quad_F A B C ((x - loc) / s))).
  - intros x. cbv zeta. set (u := (x - loc) / s). evar_last.
    + apply (is_derive_comp (quad_F A B C) (fun x => (x - loc) / s) x ((A + B * u + C * (u * u)) * phi u) (/ s)).
      * apply quad_derive.
      * auto_derive; [auto|]. field. lra.
    + unfold norm_pdf. fold u. change (@scal R_AbsRing R_NormedModule) with Rmult. unfold scal; cbn; unfold mult; cbn. field. lra.
  - intros x. cbv zeta. apply (continuous_mult (fun x => A + B * ((x - loc) / s) + C * ((x - loc) / s * ((x - loc) / s))) (fun x => norm_pdf x loc s)).
    + apply (ex_derive_continuous (fun x => A + B * ((x - loc) / s) + C * ((x - loc) / s * ((x - loc) / s)))). auto_derive. auto.
    + apply (ex_derive_continuous (fun x => norm_pdf x loc s)). unfold norm_pdf, phi. auto_derive. auto.
  - intros eps He. set (K := Rabs (A + C) + Rabs B + Rabs C).
    assert (HK : 0 <= K) by (unfold K; pose proof (Rabs_pos (A + C)); pose proof (Rabs_pos B); pose proof (Rabs_pos C); lra).
    set (D := 2 * K / eps + 1). exists (s * D + Rabs loc). intros x Hx.
    assert (HD : 1 <= D) by (unfold D; pose proof (Rdiv_le_0_compat (2 * K) eps ltac:(lra) ltac:(lra)); lra).
    assert (T : forall u, D < u -> K * (2 / u) < eps).
    { intros u Hu. replace (K * (2 / u)) with (2 * K / u) by (field; lra). apply Rlt_div_l; [lra|]. apply Rlt_le_trans with (eps * D).
      - unfold D. replace (eps * (2 * K / eps + 1)) with (2 * K + eps) by (field; lra). lra.
      - apply Rmult_le_compat_l; lra. }
    assert (U1 : D < (x - loc) / s) by (apply Rlt_div_r; [lra|]; pose proof (Rle_abs loc); lra).
    assert (U2 : D < (x + loc) / s) by (apply Rlt_div_r; [lra|]; pose proof (Rle_abs (- loc)) as L; rewrite Rabs_Ropp in L; lra).
    split.
    + eapply Rle_lt_trans; [apply quad_tail; lra|]. now apply T.
    + replace ((- x - loc) / s) with (- ((x + loc) / s)) by (field; lra). eapply Rle_lt_trans; [apply quad_tail; lra|]. now apply T.
Qed.

Section GaussianSpin.
Variables mu_eff sigma_eff mu_p sigma_p rho : R.
Hypotheses (He : 0 < sigma_eff) (Hp : 0 < sigma_p) (Hr : -1 < rho < 1).
Notation lp := (gaussian_spin_log_prob mu_eff sigma_eff mu_p sigma_p rho).

Lemma one_minus_sq : 0 < 1 - rho ^ 2.
Proof. nra. Qed.
Lemma cholesky_value : cholesky2 (gs_covariance sigma_eff sigma_p rho)
  = (Fin sigma_eff, Fin (rho * sigma_p), Fin (sigma_p * sqrt (1 - rho ^ 2))).
Proof.
  pose proof one_minus_sq as Hq. unfold cholesky2, gs_covariance, xsqrt. destruct (Rlt_dec (sigma_eff ^ 2) 0); [nra|].
  replace (sigma_eff ^ 2) with (sigma_eff * sigma_eff) by ring. rewrite sqrt_square by lra. rewrite xdiv_fin by lra. rewrite xmul_fin.
  unfold xsub. cbn [xopp xadd].
  replace (sigma_p ^ 2 + - (rho * sigma_eff * sigma_p / sigma_eff * (rho * sigma_eff * sigma_p / sigma_eff)))
    with (sigma_p * sigma_p * (1 - rho ^ 2)) by (field; lra).
  assert (0 < sigma_p * sigma_p * (1 - rho ^ 2)) by (apply Rmult_lt_0_compat; nra).
  destruct (Rlt_dec _ 0); [lra|]. rewrite sqrt_mult_alt by nra. rewrite sqrt_square by lra.
  do 2 f_equal. f_equal. field. lra.
Qed.
(** marginal of the first times conditional of the second *)
Lemma gaussian_value x y : exists r, lp x y = Fin r
  /\ exp r = norm_pdf x mu_eff sigma_eff
             * norm_pdf y (mu_p + rho * sigma_p * ((x - mu_eff) / sigma_eff)) (sigma_p * sqrt (1 - rho ^ 2)).
Proof.
  pose proof one_minus_sq as Hq. pose proof (sqrt_lt_R0 _ Hq) as Hs. set (k := sqrt (1 - rho ^ 2)) in *.
  unfold gaussian_spin_log_prob. rewrite cholesky_value. fold k. unfold mvn_log_prob, solve2, gs_loc. cbn [fst snd].
  assert (Hk : 0 < sigma_p * k) by now apply Rmult_lt_0_compat.
  rewrite !xdiv_fin by lra. rewrite !xmul_fin. unfold xsub. cbn [xopp xadd]. rewrite !xdiv_fin by lra. rewrite !xmul_fin.
  assert (P2 : 0 < 2 * PI) by (pose proof PI_RGT_0; lra).
  rewrite !xln_pos by lra. cbn [xadd xopp]. rewrite xmul_fin. cbn [xadd xopp].
  eexists. split; [reflexivity|]. unfold norm_pdf, phi.
  set (a := (x - mu_eff) / sigma_eff). set (b := (y - (mu_p + rho * sigma_p * a)) / (sigma_p * k)).
  replace (y - mu_p + - (rho * sigma_p * a)) with (y - (mu_p + rho * sigma_p * a)) by ring. fold b.
  replace (-1 / 2 * (a * a + b * b) + - (ln sigma_eff + ln (sigma_p * k) + 1 / 2 * 2 * ln (2 * PI)))
    with (- (a * a / 2) + - (b * b / 2) + - ln sigma_eff + - ln (sigma_p * k) + - ln (2 * PI)) by field.
  rewrite !exp_plus, !exp_Ropp, !exp_ln by auto.
  assert (S2 : 2 * PI = sqrt (2 * PI) * sqrt (2 * PI)) by (symmetry; apply sqrt_sqrt; lra).
  pose proof sqrt_2PI_pos. rewrite S2 at 1. rewrite <- !exp_Ropp. field. lra.
Qed.
(** the textbook form, symmetric in the two coordinates *)
Lemma gaussian_textbook x y : wexp (lp x y)
  = (let a := (x - mu_eff) / sigma_eff in let b := (y - mu_p) / sigma_p in
     exp (- (a ^ 2 - 2 * rho * a * b + b ^ 2) / (2 * (1 - rho ^ 2))) / (2 * PI * sigma_eff * sigma_p * sqrt (1 - rho ^ 2))).
Proof.
  destruct (gaussian_value x y) as (r & -> & E). cbn [wexp]. rewrite E. cbv zeta. unfold norm_pdf, phi.
  pose proof one_minus_sq as Hq. pose proof (sqrt_lt_R0 _ Hq) as Hs. pose proof (sqrt_sqrt (1 - rho ^ 2) ltac:(lra)) as S1.
  set (k := sqrt (1 - rho ^ 2)) in *. set (a := (x - mu_eff) / sigma_eff).
  replace ((y - (mu_p + rho * sigma_p * a)) / (sigma_p * k)) with (((y - mu_p) / sigma_p - rho * a) / k) by (field; lra).
  set (b := (y - mu_p) / sigma_p).
  assert (P2 : 0 < 2 * PI) by (pose proof PI_RGT_0; lra). pose proof sqrt_2PI_pos as S0.
  assert (S2 : sqrt (2 * PI) * sqrt (2 * PI) = 2 * PI) by (apply sqrt_sqrt; lra).
  replace (- (a ^ 2 - 2 * rho * a * b + b ^ 2) / (2 * (1 - rho ^ 2))) with (- (a * a / 2) + - ((b - rho * a) / k * ((b - rho * a) / k) / 2)).
  - rewrite exp_plus. set (w := sqrt (2 * PI)) in *. rewrite <- S2. field. lra.
  - replace ((b - rho * a) / k * ((b - rho * a) / k)) with ((b - rho * a) ^ 2 / (k * k)) by (field; lra). rewrite S1. field. lra.
Qed.
Lemma gaussian_pos x y : 0 < wexp (lp x y).
Proof. destruct (gaussian_value x y) as (r & -> & _). apply exp_pos. Qed.
End GaussianSpin.

(** the same with the coordinates exchanged *)
Lemma gaussian_swap mu_eff sigma_eff mu_p sigma_p rho x y : 0 < sigma_eff -> 0 < sigma_p -> -1 < rho < 1 ->
  wexp (gaussian_spin_log_prob mu_eff sigma_eff mu_p sigma_p rho x y) = wexp (gaussian_spin_log_prob mu_p sigma_p mu_eff sigma_eff rho y x).
Proof.
  intros. rewrite !gaussian_textbook by auto. cbv zeta. f_equal; [f_equal; f_equal; ring|ring].
Qed.
Lemma gaussian_conditional mu_eff sigma_eff mu_p sigma_p rho x A B : 0 < sigma_eff -> 0 < sigma_p -> -1 < rho < 1 ->
  over_line (fun y => (A + B * y) * wexp (gaussian_spin_log_prob mu_eff sigma_eff mu_p sigma_p rho x y))
    ((A + B * (mu_p + rho * sigma_p * ((x - mu_eff) / sigma_eff))) * norm_pdf x mu_eff sigma_eff).
Proof.
  intros He Hp Hr. pose proof (one_minus_sq rho Hr) as Hq. pose proof (sqrt_lt_R0 _ Hq) as Hs. set (k := sqrt (1 - rho ^ 2)) in *.
  assert (Hk : 0 < sigma_p * k) by now apply Rmult_lt_0_compat.
  set (n := norm_pdf x mu_eff sigma_eff). set (m := mu_p + rho * sigma_p * ((x - mu_eff) / sigma_eff)).
  pose proof (quad_over_line ((A + B * m) * n) (B * (sigma_p * k) * n) 0 m (sigma_p * k) Hk) as Q. rewrite Rplus_0_r in Q.
  eapply over_line_ext; [|exact Q]. intros y. cbv zeta.
  destruct (gaussian_value mu_eff sigma_eff mu_p sigma_p rho He Hp Hr x y) as (r & -> & E). cbn [wexp]. rewrite E. fold k. fold n. fold m.
  set (g := norm_pdf y m (sigma_p * k)). field. lra.
Qed.
