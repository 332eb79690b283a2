(** Property C122: the Gaussian model of effective and precession spin. *)
From Coq Require Import Reals Lra.
From Coquelicot Require Import Coquelicot.
From Verif Require Import Model_X Spec_X Proofs_X Model_Gauss Proofs_Gauss Model_Transform Model_GaussianSpin Spec_GaussianSpin Proofs_GaussianSpin.
Open Scope R_scope.

Section C122.
Variables mu_eff sigma_eff mu_p sigma_p rho : R.
Let density (x y : R) : R := wexp (gaussian_spin_log_prob mu_eff sigma_eff mu_p sigma_p rho x y).
Let in_range := 0 < sigma_eff /\ 0 < sigma_p /\ -1 < rho < 1.

(** the documented bivariate normal *)
Theorem C122_density : in_range -> forall x y,
  density x y = (let a := (x - mu_eff) / sigma_eff in let b := (y - mu_p) / sigma_p in
    exp (- (a ^ 2 - 2 * rho * a * b + b ^ 2) / (2 * (1 - rho ^ 2))) / (2 * PI * sigma_eff * sigma_p * sqrt (1 - rho ^ 2))).
Proof. intros (H1 & H2 & H3) x y. now apply gaussian_textbook. Qed.
(** each spin by itself is normal with its own mean and width; the whole has mass one *)
Theorem C122_marginals : in_range ->
  (forall x, over_line (density x) (norm_pdf x mu_eff sigma_eff))
  /\ (forall y, over_line (fun x => density x y) (norm_pdf y mu_p sigma_p))
  /\ over_plane density 1.
Proof.
  intros (H1 & H2 & H3).
  assert (A : forall x, over_line (density x) (norm_pdf x mu_eff sigma_eff)).
  { intros x. pose proof (gaussian_conditional mu_eff sigma_eff mu_p sigma_p rho x 1 0 H1 H2 H3) as Q.
    replace ((1 + 0 * (mu_p + rho * sigma_p * ((x - mu_eff) / sigma_eff))) * norm_pdf x mu_eff sigma_eff) with (norm_pdf x mu_eff sigma_eff) in Q by ring.
    eapply over_line_ext; [|exact Q]. intros y. unfold density; cbv beta; ring. }
  split; [exact A|]. split.
  - intros y. pose proof (gaussian_conditional mu_p sigma_p mu_eff sigma_eff rho y 1 0 H2 H1 H3) as Q.
    replace ((1 + 0 * (mu_eff + rho * sigma_eff * ((y - mu_p) / sigma_p))) * norm_pdf y mu_p sigma_p) with (norm_pdf y mu_p sigma_p) in Q by ring.
    eapply over_line_ext; [|exact Q]. intros x. unfold density. rewrite (gaussian_swap mu_eff sigma_eff mu_p sigma_p) by auto. ring.
  - exists (fun x => norm_pdf x mu_eff sigma_eff). split; [exact A|].
    pose proof (quad_over_line 1 0 0 mu_eff sigma_eff H1) as Q. rewrite Rplus_0_r in Q.
    eapply over_line_ext; [|exact Q]. intros x. cbv beta zeta. ring.
Qed.
(** means, variances and covariance are those of the arguments *)
Theorem C122_moments : in_range ->
  over_plane (fun x y => x * density x y) mu_eff /\ over_plane (fun x y => y * density x y) mu_p
  /\ over_plane (fun x y => (x - mu_eff) ^ 2 * density x y) (sigma_eff ^ 2)
  /\ over_plane (fun y x => (y - mu_p) ^ 2 * density x y) (sigma_p ^ 2)
  /\ over_plane (fun x y => (x - mu_eff) * (y - mu_p) * density x y) (rho * sigma_eff * sigma_p).
Proof.
  intros (H1 & H2 & H3).
  pose proof (fun x A B => gaussian_conditional mu_eff sigma_eff mu_p sigma_p rho x A B H1 H2 H3) as Q.
  pose proof (fun A B C => quad_over_line A B C mu_eff sigma_eff H1) as L.
  set (m := fun x => mu_p + rho * sigma_p * ((x - mu_eff) / sigma_eff)) in *.
  split; [|split; [|split; [|split]]].
  - exists (fun x => x * norm_pdf x mu_eff sigma_eff). split.
    + intros x. specialize (Q x x 0). replace ((x + 0 * _) * _) with (x * norm_pdf x mu_eff sigma_eff) in Q by ring.
      eapply over_line_ext; [|exact Q]. intros y. unfold density; cbv beta; ring.
    + specialize (L mu_eff sigma_eff 0). rewrite Rplus_0_r in L. eapply over_line_ext; [|exact L]. intros x. cbv beta zeta. field. lra.
  - exists (fun x => m x * norm_pdf x mu_eff sigma_eff). split.
    + intros x. specialize (Q x 0 1). replace ((0 + 1 * _) * _) with (m x * norm_pdf x mu_eff sigma_eff) in Q by (unfold m; ring).
      eapply over_line_ext; [|exact Q]. intros y. unfold density; cbv beta; ring.
    + specialize (L mu_p (rho * sigma_p) 0). rewrite Rplus_0_r in L. eapply over_line_ext; [|exact L]. intros x. unfold m. cbv beta zeta. field. lra.
  - exists (fun x => (x - mu_eff) ^ 2 * norm_pdf x mu_eff sigma_eff). split.
    + intros x. specialize (Q x ((x - mu_eff) ^ 2) 0). replace (((x - mu_eff) ^ 2 + 0 * _) * _) with ((x - mu_eff) ^ 2 * norm_pdf x mu_eff sigma_eff) in Q by ring.
      eapply over_line_ext; [|exact Q]. intros y. unfold density; cbv beta; ring.
    + specialize (L 0 0 (sigma_eff ^ 2)). rewrite Rplus_0_l in L. eapply over_line_ext; [|exact L]. intros x. cbv beta zeta. field. lra.
  - exists (fun y => (y - mu_p) ^ 2 * norm_pdf y mu_p sigma_p). split.
    + intros y. pose proof (gaussian_conditional mu_p sigma_p mu_eff sigma_eff rho y ((y - mu_p) ^ 2) 0 H2 H1 H3) as Q'.
      replace (((y - mu_p) ^ 2 + 0 * _) * _) with ((y - mu_p) ^ 2 * norm_pdf y mu_p sigma_p) in Q' by ring.
      eapply over_line_ext; [|exact Q']. intros x. unfold density. rewrite (gaussian_swap mu_eff sigma_eff mu_p sigma_p) by auto. ring.
    + pose proof (quad_over_line 0 0 (sigma_p ^ 2) mu_p sigma_p H2) as L'. rewrite Rplus_0_l in L'. eapply over_line_ext; [|exact L'].
      intros x. cbv beta zeta. field. lra.
  - exists (fun x => (x - mu_eff) * (m x - mu_p) * norm_pdf x mu_eff sigma_eff). split.
    + intros x. specialize (Q x (- (x - mu_eff) * mu_p) (x - mu_eff)).
      replace ((- (x - mu_eff) * mu_p + _) * _) with ((x - mu_eff) * (m x - mu_p) * norm_pdf x mu_eff sigma_eff) in Q by (unfold m; ring).
      eapply over_line_ext; [|exact Q]. intros y. unfold density; cbv beta; ring.
    + specialize (L 0 0 (rho * sigma_eff * sigma_p)). rewrite Rplus_0_l in L. eapply over_line_ext; [|exact L]. intros x. unfold m. cbv beta zeta. field. lra.
Qed.
(** a draw turns two independent standard normals into spins of the given means, widths and correlation *)
Theorem C122_draws : in_range -> forall e1 e2,
  gaussian_spin_sample mu_eff sigma_eff mu_p sigma_p rho e1 e2
  = (Fin (mu_eff + sigma_eff * e1), Fin (mu_p + sigma_p * (rho * e1 + sqrt (1 - rho ^ 2) * e2))).
Proof.
  intros (H1 & H2 & H3) e1 e2. unfold gaussian_spin_sample. rewrite cholesky_value by auto. unfold mvn_sample, gs_loc. cbn [fst snd].
  rewrite !xmul_fin. cbn [xadd]. f_equal. f_equal. ring.
Qed.
(** fully correlated spins have no density: log_prob is nan everywhere *)
Theorem C122_full_correlation : 0 < sigma_eff -> 0 < sigma_p -> 1 <= Rabs rho -> forall x y,
  gaussian_spin_log_prob mu_eff sigma_eff mu_p sigma_p rho x y = NaN.
Proof.
  intros H1 H2 H3 x y. unfold gaussian_spin_log_prob, cholesky2, gs_covariance, xsqrt. destruct (Rlt_dec (sigma_eff ^ 2) 0); [nra|].
  replace (sigma_eff ^ 2) with (sigma_eff * sigma_eff) by ring. rewrite sqrt_square by lra. rewrite xdiv_fin by lra. rewrite xmul_fin.
  unfold xsub. cbn [xopp xadd].
  replace (sigma_p ^ 2 + - (rho * sigma_eff * sigma_p / sigma_eff * (rho * sigma_eff * sigma_p / sigma_eff)))
    with (sigma_p * sigma_p * (1 - rho ^ 2)) by (field; lra).
  assert (1 <= rho ^ 2). { rewrite <- (pow2_abs rho). nra. }
  assert (sigma_p * sigma_p * (1 - rho ^ 2) <= 0) by nra.
  unfold mvn_log_prob, solve2. cbn [fst snd].
  destruct (Rlt_dec _ 0) as [L|L].
  - assert (N1 : forall a, xdiv a NaN = NaN) by (intros []; reflexivity). assert (N2 : forall a, xadd a NaN = NaN) by (intros []; reflexivity).
    rewrite N1. cbn [xmul xadd]. rewrite N2. reflexivity.
  - replace (sigma_p * sigma_p * (1 - rho ^ 2)) with 0 by lra. rewrite sqrt_0.
    assert (Z : xln (Fin 0) = NInf).
    { unfold xln. destruct (Rlt_dec 0 0); [lra|]. destruct (Req_EM_T 0 0); [reflexivity|congruence]. }
    rewrite xdiv_fin by lra. rewrite !xmul_fin. unfold xsub. cbn [xopp xadd]. rewrite Z. pose proof PI_RGT_0. rewrite !xln_pos by lra.
    set (d := _ + - _). unfold xdiv. destruct (Req_EM_T 0 0); [|congruence]. unfold xinf_times at 1 2.
    destruct (Rlt_dec 0 d); [|destruct (Rlt_dec d 0)]; cbn [xmul xadd]; unfold xinf_times;
      try (destruct (Rlt_dec 0 (-1 / 2)); [lra|]; destruct (Rlt_dec (-1 / 2) 0); [|lra]); reflexivity.
Qed.
(** documented range: effective spin in [-1, 1] and precession spin in [0, 1].  Every other pair has
    a positive density as well *)
Theorem C122_ranges_refuted : in_range -> forall x y, 0 < density x y.
Proof. intros (H1 & H2 & H3) x y. now apply gaussian_pos. Qed.
End C122.
Print Assumptions C122_density.
Print Assumptions C122_marginals.
Print Assumptions C122_moments.
Print Assumptions C122_draws.
Print Assumptions C122_full_correlation.
Print Assumptions C122_ranges_refuted.

Example C122_nonvacuous : (0 < 1/10 /\ 0 < 1/5 /\ -1 < -1/2 < 1)
  /\ 0 < wexp (gaussian_spin_log_prob 0 (1/10) (1/5) (1/5) (-1/2) 2 (-1))
  /\ gaussian_spin_sample 0 (1/10) (1/5) (1/5) 0 1 1 = (Fin (1/10), Fin (2/5)).
Proof.
  split; [lra|]. split; [apply C122_ranges_refuted; lra|]. rewrite C122_draws by lra.
  replace (1 - 0 ^ 2) with 1 by ring. rewrite sqrt_1. f_equal; [f_equal; field|f_equal; field].
Qed.
