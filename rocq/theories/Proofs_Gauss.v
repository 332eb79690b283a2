From Coq Require Import Reals Lra.
From Coquelicot Require Import Coquelicot.
From Verif Require Import Model_X Model_Gauss.
Open Scope R_scope.

(** ** the Gaussian integral *)
Definition gauss (t : R) : R := exp (- (t * t)).
Definition G (x : R) : R := RInt gauss 0 x.
Definition hker (x t : R) : R := exp (- (x * x * (1 + t * t))) / (1 + t * t).
Definition Hint (x : R) : R := RInt (hker x) 0 1.

Lemma gauss_cont x : continuous gauss x.
Proof. apply @ex_derive_continuous. unfold gauss. auto_derive. auto. Qed.
Lemma gauss_ex_RInt a b : ex_RInt gauss a b.
Proof. apply @ex_RInt_continuous. intros; apply gauss_cont. Qed.
Lemma G_derive x : is_derive G x (gauss x).
Proof.
  unfold G. apply is_derive_RInt with (a := 0); [|apply gauss_cont].
  apply filter_forall. intros y. apply @RInt_correct. apply gauss_ex_RInt.
Qed.

Lemma one_plus_sq t : 0 < 1 + t * t.
Proof. nra. Qed.
Lemma hker_derive x t : is_derive (fun u => hker u t) x (- 2 * x * gauss x * gauss (x * t)).
Proof.
  pose proof (one_plus_sq t). unfold hker, gauss. auto_derive; [lra|].
  replace (- (x * x * (1 + t * t))) with (- (x * x) + - (x * t * (x * t))) by ring.
  rewrite exp_plus. field. lra.
Qed.
Lemma hker_Derive x t : Derive (fun u => hker u t) x = - 2 * x * gauss x * gauss (x * t).
Proof. apply is_derive_unique, hker_derive. Qed.

Lemma hker_ex_RInt x a b : ex_RInt (hker x) a b.
Proof.
  apply @ex_RInt_continuous. intros t _. apply @ex_derive_continuous. unfold hker.
  pose proof (one_plus_sq t). auto_derive. lra.
Qed.

Lemma cont2d u t : continuity_2d_pt (fun u v => Derive (fun z => hker z v) u) u t.
Proof.
  apply continuity_2d_pt_ext with (fun u v => - 2 * u * gauss u * gauss (u * v)).
  { intros x y. now rewrite hker_Derive. }
  repeat apply continuity_2d_pt_mult; try apply continuity_2d_pt_const; try apply continuity_2d_pt_id1.
  - apply (continuity_1d_2d_pt_comp gauss (fun u v => u)); [|apply continuity_2d_pt_id1].
    apply continuity_pt_filterlim. apply gauss_cont.
  - apply (continuity_1d_2d_pt_comp gauss (fun u v => u * v)).
    + apply continuity_pt_filterlim. apply gauss_cont.
    + apply continuity_2d_pt_mult; [apply continuity_2d_pt_id1|apply continuity_2d_pt_id2].
Qed.

Lemma Hint_derive (x : R) : is_derive Hint x (- 2 * gauss x * G x).
Proof.
  replace (- 2 * gauss x * G x) with (RInt (fun t => Derive (fun u => hker u t) x) 0 1).
  - unfold Hint. apply is_derive_RInt_param.
    + apply filter_forall. intros y t _. eexists. apply hker_derive.
    + intros t _. apply cont2d.
    + apply filter_forall. intros y. apply hker_ex_RInt.
  - apply is_RInt_unique.
    apply is_RInt_ext with (fun t => scal (- 2 * gauss x) (scal x (gauss (x * t + 0)))).
    { intros t _. rewrite hker_Derive, Rplus_0_r. unfold scal; simpl; unfold mult; simpl. ring. }
    apply @is_RInt_scal. apply @is_RInt_comp_lin.
    replace (x * 0 + 0) with 0 by ring. replace (x * 1 + 0) with x by ring.
    unfold G. apply @RInt_correct. apply gauss_ex_RInt.
Qed.

Lemma hker_0 t : hker 0 t = / (1 + t²).
Proof. unfold hker, Rsqr. rewrite !Rmult_0_l, Ropp_0, exp_0. unfold Rdiv. ring. Qed.

Lemma gauss_sum_const (x : R) : G x * G x + Hint x = PI / 4.
Proof.
  assert (D : forall y, is_derive (fun y => G y * G y + Hint y) y 0).
  { intros y. replace 0 with (plus (plus (mult (gauss y) (G y)) (mult (G y) (gauss y))) (- 2 * gauss y * G y))
      by (unfold plus, mult; simpl; unfold mult; simpl; ring).
    apply @is_derive_plus; [|apply Hint_derive].
    apply @is_derive_mult; try apply G_derive. intros n m. apply Rmult_comm. }
  assert (C : G x * G x + Hint x = G 0 * G 0 + Hint 0).
  { destruct (MVT_gen (fun y => G y * G y + Hint y) 0 x (fun _ => 0)) as (c & _ & E).
    - intros y _. apply D.
    - intros y _. apply continuity_pt_filterlim. apply (ex_derive_continuous (fun y => G y * G y + Hint y)). eexists. apply D.
    - rewrite Rmult_0_l in E. lra. }
  rewrite C. replace (G 0) with 0 by (unfold G; now rewrite RInt_point).
  replace (Hint 0) with (PI / 4); [ring|]. symmetry. unfold Hint.
  apply is_RInt_unique. rewrite <- atan_1.
  replace (atan 1) with (minus (atan 1) (atan 0)) by (unfold minus, plus, opp; simpl; rewrite atan_0; ring).
  apply is_RInt_ext with (fun t => / (1 + t²)).
  { intros t _. symmetry. apply hker_0. }
  apply @is_RInt_derive.
  - intros t _. apply is_derive_Reals. replace (/ (1 + t²)) with (/ (1 + t ^ 2)) by (f_equal; unfold Rsqr; ring). apply derivable_pt_lim_atan.
  - intros t _. apply @ex_derive_continuous. unfold Rsqr. pose proof (one_plus_sq t). auto_derive. lra.
Qed.

Lemma Hint_pos x : 0 < Hint x.
Proof.
  unfold Hint. apply RInt_gt_0; [lra| |].
  - intros t _. unfold hker. apply Rdiv_lt_0_compat; [apply exp_pos|apply one_plus_sq].
  - intros t _. apply @ex_derive_continuous. unfold hker. pose proof (one_plus_sq t). auto_derive. lra.
Qed.

Lemma Hint_le x : Hint x <= exp (- (x * x)).
Proof.
  unfold Hint. replace (exp (- (x * x))) with (RInt (fun _ => exp (- (x * x))) 0 1).
  2:{ rewrite RInt_const. unfold scal; simpl; unfold mult; simpl. ring. }
  apply RInt_le; [lra|apply hker_ex_RInt|apply ex_RInt_const|].
  intros t Ht. unfold hker. pose proof (one_plus_sq t).
  apply Rle_div_l; [lra|].
  assert (exp (- (x * x * (1 + t * t))) <= exp (- (x * x))).
  { destruct (Req_dec x 0) as [->|Hx].
    - right. f_equal. ring.
    - left. apply exp_increasing. assert (0 < x * x) by nra. assert (0 < t * t) by nra. nra. }
  pose proof (exp_pos (- (x * x))). nra.
Qed.

Lemma sqrt_PI_pos : 0 < sqrt PI.
Proof. apply sqrt_lt_R0, PI_RGT_0. Qed.
Lemma sqrt_PI_sq : sqrt PI * sqrt PI = PI.
Proof. apply sqrt_sqrt. left. apply PI_RGT_0. Qed.

Lemma G_bound x : - (sqrt PI / 2) < G x < sqrt PI / 2.
Proof.
  pose proof (gauss_sum_const x) as E. pose proof (Hint_pos x) as P.
  pose proof sqrt_PI_pos. pose proof sqrt_PI_sq.
  split; nra.
Qed.

(** ** the standard normal *)
Lemma sqrt_2PI_pos : 0 < sqrt (2 * PI).
Proof. apply sqrt_lt_R0. pose proof PI_RGT_0. lra. Qed.
Lemma phi_pos x : 0 < phi x.
Proof. unfold phi. apply Rdiv_lt_0_compat; [apply exp_pos|apply sqrt_2PI_pos]. Qed.
Lemma phi_cont x : continuous phi x.
Proof. apply @ex_derive_continuous. unfold phi. auto_derive. pose proof sqrt_2PI_pos. lra. Qed.
Lemma phi_ex_RInt a b : ex_RInt phi a b.
Proof. apply @ex_RInt_continuous. intros; apply phi_cont. Qed.
Lemma phi_even x : phi (- x) = phi x.
Proof. unfold phi. f_equal. f_equal. field. Qed.

Lemma ndtr_derive x : is_derive ndtr x (phi x).
Proof.
  unfold ndtr. replace (phi x) with (plus 0 (phi x)) by (unfold plus; simpl; ring).
  apply @is_derive_plus; [apply @is_derive_const|].
  apply is_derive_RInt with (a := 0); [|apply phi_cont].
  apply filter_forall. intros y. apply @RInt_correct. apply phi_ex_RInt.
Qed.

Lemma ndtr_G (x : R) : ndtr x = 1/2 + G (x / sqrt 2) / sqrt PI.
Proof.
  unfold ndtr. f_equal. apply is_RInt_unique.
  pose proof sqrt_PI_pos as SP. assert (S2 : 0 < sqrt 2) by (apply sqrt_lt_R0; lra).
  assert (SS : sqrt 2 * sqrt 2 = 2) by (apply sqrt_sqrt; lra).
  apply is_RInt_ext with (fun t => scal (/ sqrt PI) (scal (/ sqrt 2) (gauss (/ sqrt 2 * t + 0)))).
  { intros t _. unfold phi, gauss, scal; simpl; unfold mult; simpl. rewrite Rplus_0_r.
    rewrite sqrt_mult by (pose proof PI_RGT_0; lra).
    replace (/ sqrt 2 * t * (/ sqrt 2 * t)) with (t * t / 2).
    - field. split; lra.
    - transitivity (t * t / (sqrt 2 * sqrt 2)); [now rewrite SS|field; lra]. }
  unfold Rdiv at 1. rewrite Rmult_comm. apply @is_RInt_scal. apply @is_RInt_comp_lin.
  replace (/ sqrt 2 * 0 + 0) with 0 by ring. replace (/ sqrt 2 * x + 0) with (x / sqrt 2) by (unfold Rdiv; ring).
  unfold G. apply @RInt_correct. apply gauss_ex_RInt.
Qed.

Lemma ndtr_bounds x : 0 < ndtr x < 1.
Proof.
  rewrite ndtr_G. pose proof sqrt_PI_pos as SP. pose proof (G_bound (x / sqrt 2)) as [A B].
  split.
  - assert (- (1/2) < G (x / sqrt 2) / sqrt PI); [|lra]. apply Rlt_div_r; lra.
  - assert (G (x / sqrt 2) / sqrt PI < 1/2); [|lra]. apply Rlt_div_l; lra.
Qed.

Lemma ndtr_incr x y : x < y -> ndtr x < ndtr y.
Proof.
  intros H. destruct (MVT_gen ndtr x y phi) as (c & _ & E).
  - intros t _. apply ndtr_derive.
  - intros t _. apply continuity_pt_filterlim. apply (ex_derive_continuous ndtr). eexists. apply ndtr_derive.
  - pose proof (phi_pos c). assert (0 < phi c * (y - x)) by (apply Rmult_lt_0_compat; lra). lra.
Qed.

Lemma ndtr_0 : ndtr 0 = 1/2.
Proof. unfold ndtr. rewrite RInt_point. unfold zero; simpl. ring. Qed.

Lemma ndtr_opp (x : R) : ndtr (- x) = 1 - ndtr x.
Proof.
  assert (D : forall y, is_derive (fun y => ndtr y + ndtr (- y)) y 0).
  { intros y. replace 0 with (plus (phi y) (scal (-1) (phi (- y)))).
    - apply @is_derive_plus; [apply ndtr_derive|].
      apply (is_derive_comp ndtr (fun y => - y)); [apply ndtr_derive|]. auto_derive; auto.
    - rewrite phi_even. unfold plus, scal; simpl; unfold mult; simpl. ring. }
  destruct (MVT_gen (fun y => ndtr y + ndtr (- y)) 0 x (fun _ => 0)) as (c & _ & E).
  - intros t _. apply D.
  - intros t _. apply continuity_pt_filterlim. apply (ex_derive_continuous (fun y => ndtr y + ndtr (- y))).
    eexists. apply D.
  - rewrite Ropp_0, ndtr_0, Rmult_0_l in E. lra.
Qed.

(** the normal density integrates to differences of [ndtr] *)
Lemma phi_RInt a b : is_RInt phi a b (ndtr b - ndtr a).
Proof.
  apply (is_RInt_derive ndtr phi a b); intros t _; [apply ndtr_derive|apply phi_cont].
Qed.

Lemma norm_pdf_RInt (loc scale a b : R) : 0 < scale ->
  is_RInt (fun x => norm_pdf x loc scale) a b (ndtr ((b - loc) / scale) - ndtr ((a - loc) / scale)).
Proof.
  intros Hs. apply is_RInt_ext with (fun x => scal (/ scale) (phi (/ scale * x + (- loc / scale)))).
  { intros x _. unfold norm_pdf, scal; simpl; unfold mult; simpl.
    replace (/ scale * x + - loc / scale) with ((x - loc) / scale) by (field; lra). unfold Rdiv. ring. }
  apply @is_RInt_comp_lin.
  replace (/ scale * a + - loc / scale) with ((a - loc) / scale) by (field; lra).
  replace (/ scale * b + - loc / scale) with ((b - loc) / scale) by (field; lra).
  apply phi_RInt.
Qed.

(** ... and [ndtr] tends to 0 and 1: quantitative form *)
Lemma ndtr_tail x : 0 <= x -> 1 - exp (- (x * x / 2)) <= ndtr x.
Proof.
  intros Hx. rewrite ndtr_G. pose proof (gauss_sum_const (x / sqrt 2)) as E.
  pose proof (Hint_le (x / sqrt 2)) as L. pose proof sqrt_PI_pos as SP. pose proof sqrt_PI_sq as SS.
  assert (S2 : sqrt 2 * sqrt 2 = 2) by (apply sqrt_sqrt; lra).
  assert (S2p : 0 < sqrt 2) by (apply sqrt_lt_R0; lra).
  replace (x / sqrt 2 * (x / sqrt 2)) with (x * x / 2) in L.
  2:{ transitivity (x * x / (sqrt 2 * sqrt 2)); [now rewrite S2|field; lra]. }
  set (g := G (x / sqrt 2)) in *. set (e := exp (- (x * x / 2))) in *.
  assert (Hg : 0 <= g).
  { unfold g, G. apply RInt_ge_0; [apply Rdiv_le_0_compat; lra|apply gauss_ex_RInt|].
    intros; left; apply exp_pos. }
  pose proof (exp_pos (- (x * x / 2))). fold e in H.
  assert (PI2 : 2 < PI) by (pose proof PI2_1; lra).
  assert (HP : sqrt PI * g >= (PI / 2) - 2 * e).
  { apply Rle_ge. destruct (Rle_dec (PI / 4) e) as [Be|Be].
    - pose proof (Rmult_le_pos _ _ (Rlt_le _ _ SP) Hg). lra.
    - assert (g * g >= PI / 4 - e) by lra.
      assert (Hq : (PI / 2 - 2 * e) * (PI / 2 - 2 * e) <= (sqrt PI * g) * (sqrt PI * g)).
      { replace (sqrt PI * g * (sqrt PI * g)) with (PI * (g * g)) by (rewrite <- SS at 1; ring).
        nra. }
      pose proof (Rmult_le_pos _ _ (Rlt_le _ _ SP) Hg). nra. }
  assert (1/2 - e <= g / sqrt PI); [|lra].
  apply Rle_div_r; [lra|].
  apply Rmult_le_reg_l with (sqrt PI); [lra|].
  replace (sqrt PI * ((1 / 2 - e) * sqrt PI)) with ((1/2 - e) * PI) by (rewrite <- SS at 1; ring).
  nra.
Qed.
