From Coq Require Import Reals Lra Lia List Bool.
From Coquelicot Require Import Coquelicot.
From Verif Require Import Model_X Model_Transform Model_ChiEff Spec_ChiEff.
Import ListNotations.
Open Scope R_scope.

(** ** the integral is unique *)
Lemma constant_except (E : list R) : forall (D : R -> R) a b, a <= b ->
  (forall x, a <= x <= b -> continuous D x) ->
  (forall x, a < x < b -> ~ In x E -> is_derive D x 0) -> D b = D a.
Proof.
  induction E as [|e E IH]; intros D a b Hab Hc Hd.
  - destruct (Req_dec a b) as [->|Hne]; [reflexivity|].
    destruct (MVT_gen D a b (fun _ => 0)) as (c & _ & Hm).
    + intros x Hx. rewrite Rmin_left, Rmax_right in Hx by lra. apply Hd; [lra|simpl; tauto].
    + intros x Hx. rewrite Rmin_left, Rmax_right in Hx by lra. apply continuity_pt_filterlim, Hc. lra.
    + lra.
  - destruct (Rlt_dec a e) as [Hae|Hae]; [destruct (Rlt_dec e b) as [Heb|Heb]|].
    + rewrite (IH D e b), (IH D a e); auto; try lra.
      * intros x Hx. apply Hc. lra.
      * intros x Hx Hn. apply Hd; [lra|]. intros [->|H]; [lra|contradiction].
      * intros x Hx. apply Hc. lra.
      * intros x Hx Hn. apply Hd; [lra|]. intros [->|H]; [lra|contradiction].
    + apply IH; auto. intros x Hx Hn. apply Hd; [lra|]. intros [->|H]; [lra|contradiction].
    + apply IH; auto. intros x Hx Hn. apply Hd; [lra|]. intros [->|H]; [lra|contradiction].
Qed.

Lemma newton_integral_unique f a b v w : a <= b ->
  newton_integral f a b v -> newton_integral f a b w -> v = w.
Proof.
  intros Hab (P & E & Hc & Hd & ->) (P' & E' & Hc' & Hd' & ->).
  pose proof (constant_except (E ++ E') (fun x => P x - P' x) a b Hab) as H.
  enough (P b - P' b = P a - P' a) by lra. apply H.
  - intros x Hx. apply (continuous_minus P P' x); auto.
  - intros x Hx Hn. replace 0 with (f x - f x) by lra. apply (is_derive_minus P P' x (f x) (f x)).
    + apply Hd; auto. intros Hi. apply Hn, in_or_app. auto.
    + apply Hd'; auto. intros Hi. apply Hn, in_or_app. auto.
Qed.

Lemma newton_integral_ext f g a b v : (forall x, a < x < b -> f x = g x) ->
  newton_integral f a b v -> newton_integral g a b v.
Proof.
  intros He (P & E & Hc & Hd & Hv). exists P, E. split; [exact Hc|split; [|exact Hv]].
  intros x Hx Hn. rewrite <- He by exact Hx. auto.
Qed.

Lemma newton_integral_mirror f b v : newton_integral f (- b) b v ->
  newton_integral (fun x => f (- x)) (- b) b v.
Proof.
  intros (P & E & Hc & Hd & Hv). exists (fun x => - P (- x)), (map Ropp E). split; [|split].
  - intros x Hx. apply (continuous_opp (fun x => P (- x)) x). apply continuous_comp.
    + apply (ex_derive_continuous (fun x => - x)). auto_derive. auto.
    + apply Hc. lra.
  - intros x Hx Hn. replace (f (- x)) with (opp (scal (-1) (f (- x)))).
    2:{ unfold scal, opp; simpl. unfold mult; simpl. lra. }
    apply (is_derive_opp (fun x => P (- x)) x). apply (is_derive_comp P (fun x => - x) x).
    + apply Hd; [lra|]. intros Hi. apply Hn. rewrite <- (Ropp_involutive x). now apply in_map.
    + auto_derive; auto.
  - rewrite Ropp_involutive. lra.
Qed.

(** monotone: the integral of a non-negative function is non-negative *)
Lemma nondecreasing_except (E : list R) : forall (P f : R -> R) a b, a <= b ->
  (forall x, a <= x <= b -> continuous P x) ->
  (forall x, a < x < b -> 0 <= f x) ->
  (forall x, a < x < b -> ~ In x E -> is_derive P x (f x)) -> P a <= P b.
Proof.
  induction E as [|e E IH]; intros P f a b Hab Hc Hf Hd.
  - destruct (Req_dec a b) as [->|Hne]; [lra|].
    destruct (MVT_gen P a b (fun x => if Rlt_dec a x then if Rlt_dec x b then f x else 0 else 0)) as (c & _ & Hm).
    + intros x Hx. rewrite Rmin_left, Rmax_right in Hx by lra.
      destruct (Rlt_dec a x); [|lra]. destruct (Rlt_dec x b); [|lra]. apply Hd; [lra|simpl; tauto].
    + intros x Hx. rewrite Rmin_left, Rmax_right in Hx by lra. apply continuity_pt_filterlim, Hc. lra.
    + destruct (Rlt_dec a c); [|lra]. destruct (Rlt_dec c b); [|lra]. specialize (Hf c ltac:(lra)). nra.
  - destruct (Rlt_dec a e) as [Hae|Hae]; [destruct (Rlt_dec e b) as [Heb|Heb]|].
    + apply Rle_trans with (P e); apply (IH P f); try lra.
      * intros x Hx. apply Hc. lra.
      * intros x Hx. apply Hf. lra.
      * intros x Hx Hn. apply Hd; [lra|]. intros [->|H]; [lra|contradiction].
      * intros x Hx. apply Hc. lra.
      * intros x Hx. apply Hf. lra.
      * intros x Hx Hn. apply Hd; [lra|]. intros [->|H]; [lra|contradiction].
    + apply (IH P f); auto. intros x Hx Hn. apply Hd; [lra|]. intros [->|H]; [lra|contradiction].
    + apply (IH P f); auto. intros x Hx Hn. apply Hd; [lra|]. intros [->|H]; [lra|contradiction].
Qed.

(** ** logarithms *)
Lemma is_derive_lnabs x : x <> 0 -> is_derive (fun y => ln (Rabs y)) x (/ x).
Proof.
  intros Hx. destruct (Rlt_dec 0 x) as [H|H].
  - apply (is_derive_ext_loc ln).
    + exists (mkposreal x H). intros y Hy. rewrite Rabs_pos_eq; auto.
      unfold ball in Hy; simpl in Hy; unfold AbsRing_ball, minus, plus, opp, abs in Hy; simpl in Hy.
      apply Rabs_def2 in Hy. lra.
    + apply is_derive_ln; auto.
  - assert (H' : 0 < - x) by lra. apply (is_derive_ext_loc (fun y => ln (- y))).
    + exists (mkposreal (- x) H'). intros y Hy. rewrite Rabs_left; auto.
      unfold ball in Hy; simpl in Hy; unfold AbsRing_ball, minus, plus, opp, abs in Hy; simpl in Hy.
      apply Rabs_def2 in Hy. lra.
    + auto_derive; [lra|]. field. lra.
Qed.

Lemma continuous_lnabs x : x <> 0 -> continuous (fun y => ln (Rabs y)) x.
Proof. intros H. apply (ex_derive_continuous (fun y => ln (Rabs y))). eexists. now apply is_derive_lnabs. Qed.

Definition xlnx (x : R) : R := x * ln (Rabs x).

Lemma ln_bound t : 0 < t -> ln t <= t - 1.
Proof.
  intros H. replace t with (1 + (t - 1)) at 1 by ring.
  destruct (Req_dec (t - 1) 0) as [E|E].
  - rewrite E, Rplus_0_r, ln_1. lra.
  - apply Rlt_le. rewrite <- (ln_exp (t - 1)) at 2. apply ln_increasing; [lra|]. apply exp_ineq1. exact E.
Qed.

Lemma xlnx_small t : 0 < t < 1 -> Rabs (t * ln t) <= 2 * sqrt t.
Proof.
  intros (H0 & H1). assert (Hs : 0 < sqrt t) by (apply sqrt_lt_R0; auto).
  assert (Hsq : sqrt t * sqrt t = t) by (apply sqrt_sqrt; lra).
  assert (Hl : ln t = - 2 * ln (/ sqrt t)).
  { rewrite ln_Rinv by auto. rewrite <- Hsq at 1. rewrite ln_mult by auto. ring. }
  pose proof (ln_bound (/ sqrt t) (Rinv_0_lt_compat _ Hs)) as Hb.
  assert (Hn : ln t < 0) by (rewrite <- ln_1; apply ln_increasing; lra).
  rewrite Rabs_mult, (Rabs_pos_eq t), (Rabs_left (ln t)) by lra. rewrite Hl.
  assert (t * / sqrt t = sqrt t) by (rewrite <- Hsq at 1; field; lra).
  nra.
Qed.

Lemma continuous_xlnx x : continuous xlnx x.
Proof.
  destruct (Req_dec x 0) as [->|Hx].
  - apply continuity_pt_filterlim. intros eps Heps.
    exists (Rmin 1 ((eps / 2) * (eps / 2))). split.
    { apply Rmin_case; [lra|]. nra. }
    intros y (Hy & Hd). unfold dist in *; simpl in *; unfold R_dist in *.
    assert (Hy0 : y <> 0). { destruct Hy as (_ & H). congruence. }
    unfold xlnx at 2. rewrite Rmult_0_l, Rminus_0_r in *.
    assert (Hya : 0 < Rabs y) by (now apply Rabs_pos_lt).
    assert (Hs : Rabs (xlnx y) = Rabs (Rabs y * ln (Rabs y))).
    { unfold xlnx. rewrite !Rabs_mult, Rabs_Rabsolu. reflexivity. }
    rewrite Hs. eapply Rle_lt_trans; [apply xlnx_small; split; auto; eapply Rlt_le_trans; [exact Hd|apply Rmin_l]|].
    assert (Hq : Rabs y < (eps / 2) * (eps / 2)) by (eapply Rlt_le_trans; [exact Hd|apply Rmin_r]).
    assert (sqrt (Rabs y) < eps / 2).
    { rewrite <- (sqrt_square (eps / 2)) by lra. apply sqrt_lt_1; nra. }
    lra.
  - apply (continuous_mult (fun y => y) (fun y => ln (Rabs y))); [apply continuous_id|now apply continuous_lnabs].
Qed.

(** if H is derivable at x0, then (H y - H x0) * ln |y - x0| is continuous at x0 *)
Lemma continuous_diff_ln (H : R -> R) (x0 l : R) : is_derive H x0 l ->
  continuous (fun y => (H y - H x0) * ln (Rabs (y - x0))) x0.
Proof.
  intros Hd.
  assert (Hq : continuous (fun y => if Req_EM_T y x0 then l else (H y - H x0) / (y - x0)) x0).
  { apply continuity_pt_filterlim. intros eps Heps.
    apply is_derive_Reals in Hd. destruct (Hd eps Heps) as (delta & Hdel).
    exists delta. split; [apply cond_pos|]. intros y (Hy & Hdist).
    unfold dist in *; simpl in *; unfold R_dist in *.
    destruct (Req_EM_T x0 x0) as [_|n]; [|congruence].
    destruct (Req_EM_T y x0) as [->|Hne]; [replace (l - l) with 0 by ring; rewrite Rabs_R0; lra|].
    specialize (Hdel (y - x0) ltac:(lra) Hdist). replace (x0 + (y - x0)) with y in Hdel by ring. exact Hdel. }
  assert (He : forall y : R, (if Req_EM_T y x0 then l else (H y - H x0) / (y - x0)) * xlnx (y - x0)
                             = (H y - H x0) * ln (Rabs (y - x0))).
  { intros y. unfold xlnx. destruct (Req_EM_T y x0) as [->|Hne]; [ring|]. field. lra. }
  apply (continuous_ext (fun y => (if Req_EM_T y x0 then l else (H y - H x0) / (y - x0)) * xlnx (y - x0))).
  - exact He.
  - apply (continuous_mult _ (fun y => xlnx (y - x0))); [exact Hq|].
    apply (continuous_comp (fun y => y - x0) xlnx); [|apply continuous_xlnx].
    apply (ex_derive_continuous (fun y => y - x0)). auto_derive. auto.
Qed.

(** ** the dilogarithm exists *)
Definition dilog_integrand (t : R) : R := if Req_EM_T t 0 then 1 else - ln (1 - t) / t.

Lemma continuous_dilog_integrand t : t < 1 -> continuous dilog_integrand t.
Proof.
  intros Ht. destruct (Req_dec t 0) as [->|Hne].
  - apply continuity_pt_filterlim. intros eps Heps.
    assert (Hd : is_derive (fun t => - ln (1 - t)) 0 1) by (auto_derive; [lra|field; lra]).
    apply is_derive_Reals in Hd. destruct (Hd eps Heps) as (delta & Hdel). exists delta.
    split; [apply cond_pos|]. intros y (Hy & Hdist). unfold dist in *; simpl in *; unfold R_dist in *.
    assert (Hy0 : y <> 0) by (destruct Hy; congruence). rewrite Rminus_0_r in Hdist.
    specialize (Hdel y Hy0 Hdist). unfold dilog_integrand.
    destruct (Req_EM_T 0 0) as [_|n]; [|congruence]. destruct (Req_EM_T y 0); [contradiction|].
    rewrite Rplus_0_l in Hdel. rewrite (Rminus_0_r 1), ln_1 in Hdel.
    replace (- ln (1 - y) / y - 1) with ((- ln (1 - y) - - 0) / y - 1) by (field; auto). exact Hdel.
  - apply (continuous_ext_loc _ (fun t => - ln (1 - t) / t)).
    + exists (mkposreal (Rabs t) (Rabs_pos_lt _ Hne)). intros y Hy. unfold dilog_integrand.
      destruct (Req_EM_T y 0) as [->|]; auto.
      unfold ball in Hy; simpl in Hy; unfold AbsRing_ball, minus, plus, opp, abs in Hy; simpl in Hy.
      rewrite Rplus_0_l, Rabs_Ropp in Hy. lra.
    + apply (ex_derive_continuous (fun t => - ln (1 - t) / t)). auto_derive. lra.
Qed.

Definition dilog_low (x : R) : R := RInt dilog_integrand 0 x.

Lemma ex_dilog x : x < 1 -> ex_RInt dilog_integrand 0 x.
Proof.
  intros Hx. apply (ex_RInt_continuous dilog_integrand). intros z Hz. apply continuous_dilog_integrand.
  unfold Rmax in Hz. destruct (Rle_dec 0 x); lra.
Qed.

Lemma is_derive_dilog_low x : x < 1 -> is_derive dilog_low x (dilog_integrand x).
Proof.
  intros Hx. apply (is_derive_RInt dilog_integrand dilog_low 0 x).
  - assert (He : 0 < (1 - x) / 2) by lra. exists (mkposreal _ He). intros y Hy.
    unfold ball in Hy; simpl in Hy; unfold AbsRing_ball, minus, plus, opp, abs in Hy; simpl in Hy.
    apply Rabs_def2 in Hy. apply (RInt_correct (V := R_CompleteNormedModule)). apply ex_dilog. lra.
  - now apply continuous_dilog_integrand.
Qed.

Lemma dilog_low_0 : dilog_low 0 = 0.
Proof. unfold dilog_low. now rewrite RInt_point. Qed.

Definition dilog_const : R := 2 * dilog_low (/ 2) + ln (/ 2) * ln (/ 2).
Definition dilog_high (x : R) : R := dilog_const - ln x * ln (Rabs (1 - x)) - dilog_low (1 - x).

Lemma is_derive_dilog_high x : 0 < x -> x <> 1 -> is_derive dilog_high x (- ln (Rabs (1 - x)) / x).
Proof.
  intros H0 H1. unfold dilog_high.
  assert (Hl : is_derive (fun x => ln (Rabs (1 - x))) x (/ (x - 1))).
  { replace (/ (x - 1)) with (scal (-1) (/ (1 - x))).
    2:{ unfold scal; simpl; unfold mult; simpl. field. lra. }
    apply (is_derive_comp (fun y => ln (Rabs y)) (fun x => 1 - x)); [apply is_derive_lnabs; lra|auto_derive; auto; ring]. }
  assert (Hlow : is_derive (fun x => dilog_low (1 - x)) x (ln x / (1 - x))).
  { replace (ln x / (1 - x)) with (scal (-1) (dilog_integrand (1 - x))).
    2:{ unfold dilog_integrand, scal; simpl; unfold mult; simpl. destruct (Req_EM_T (1 - x) 0); [lra|].
        replace (1 - (1 - x)) with x by ring. field. lra. }
    apply (is_derive_comp dilog_low (fun x => 1 - x)); [apply is_derive_dilog_low; lra|auto_derive; auto; ring]. }
  replace (- ln (Rabs (1 - x)) / x)
    with (0 - (/ x * ln (Rabs (1 - x)) + ln x * / (x - 1)) - ln x / (1 - x)) by (field; lra).
  apply (is_derive_minus (fun x => dilog_const - ln x * ln (Rabs (1 - x))) (fun x => dilog_low (1 - x))); [|exact Hlow].
  apply (is_derive_minus (fun _ => dilog_const) (fun x => ln x * ln (Rabs (1 - x)))); [apply (is_derive_const dilog_const)|].
  apply (is_derive_mult ln (fun x => ln (Rabs (1 - x))) x); [apply is_derive_ln; auto|exact Hl|].
  intros; apply Rmult_comm.
Qed.

Lemma dilog_low_high x : 0 < x < 1 -> dilog_low x = dilog_high x.
Proof.
  intros Hx. set (D := fun x => dilog_low x - dilog_high x).
  assert (Hder : forall y, 0 < y < 1 -> is_derive D y 0).
  { intros y Hy. replace 0 with (dilog_integrand y - - ln (Rabs (1 - y)) / y).
    - apply (is_derive_minus dilog_low dilog_high); [apply is_derive_dilog_low; lra|apply is_derive_dilog_high; lra].
    - unfold dilog_integrand. destruct (Req_EM_T y 0); [lra|]. rewrite Rabs_pos_eq by lra. lra. }
  assert (Hhalf : D (/ 2) = 0).
  { unfold D, dilog_high, dilog_const. replace (1 - / 2) with (/ 2) by field. rewrite Rabs_pos_eq by lra. ring. }
  assert (H : D x = D (/ 2)).
  { destruct (Rle_dec x (/ 2)).
    - symmetry. apply (constant_except [] D x (/ 2)); auto.
      + intros z Hz. apply (ex_derive_continuous D). exists 0. apply Hder. lra.
      + intros z Hz _. apply Hder. lra.
    - apply (constant_except [] D (/ 2) x); try lra.
      + intros z Hz. apply (ex_derive_continuous D). exists 0. apply Hder. lra.
      + intros z Hz _. apply Hder. lra. }
  unfold D in *. lra.
Qed.

Definition dilog (x : R) : R := if Rlt_dec x 1 then dilog_low x else dilog_high x.

Lemma dilog_locally_low x : x < 1 -> locally x (fun y => dilog_low y = dilog y).
Proof.
  intros Hx. assert (He : 0 < 1 - x) by lra. exists (mkposreal _ He). intros y Hy.
  unfold ball in Hy; simpl in Hy; unfold AbsRing_ball, minus, plus, opp, abs in Hy; simpl in Hy.
  apply Rabs_def2 in Hy. unfold dilog. destruct (Rlt_dec y 1); [reflexivity|lra].
Qed.
Lemma dilog_locally_high x : 0 < x -> locally x (fun y => dilog_high y = dilog y).
Proof.
  intros Hx. exists (mkposreal _ Hx). intros y Hy.
  unfold ball in Hy; simpl in Hy; unfold AbsRing_ball, minus, plus, opp, abs in Hy; simpl in Hy.
  apply Rabs_def2 in Hy. unfold dilog. destruct (Rlt_dec y 1); [symmetry; apply dilog_low_high; lra|reflexivity].
Qed.

Lemma dilogarithm_exists : dilogarithm dilog.
Proof.
  split; [|split].
  - unfold dilog. destruct (Rlt_dec 0 1); [apply dilog_low_0|lra].
  - intros x. destruct (Rlt_dec x 1) as [Hx|Hx].
    + apply (continuous_ext_loc _ dilog_low); [now apply dilog_locally_low|].
      apply (ex_derive_continuous dilog_low). eexists. now apply is_derive_dilog_low.
    + apply (continuous_ext_loc _ dilog_high); [apply dilog_locally_high; lra|].
      destruct (Req_dec x 1) as [->|Hne].
      2:{ apply (ex_derive_continuous dilog_high). eexists. apply is_derive_dilog_high; lra. }
      unfold dilog_high.
      apply (continuous_minus (fun x => dilog_const - ln x * ln (Rabs (1 - x))) (fun x => dilog_low (1 - x))).
      * apply (continuous_minus (fun _ => dilog_const)); [apply continuous_const|].
        apply (continuous_ext (fun y => (ln y - ln 1) * ln (Rabs (y - 1)))).
        { intros y. rewrite ln_1, Rminus_0_r, (Rabs_minus_sym 1 y). reflexivity. }
        apply (continuous_diff_ln ln 1 (/ 1)). apply is_derive_ln. lra.
      * apply (continuous_comp (fun x => 1 - x) dilog_low).
        -- apply (ex_derive_continuous (fun x => 1 - x)). auto_derive. auto.
        -- apply (ex_derive_continuous dilog_low). eexists. apply is_derive_dilog_low. lra.
  - intros x H0 H1. destruct (Rlt_dec x 1) as [Hx|Hx].
    + apply (is_derive_ext_loc dilog_low); [now apply dilog_locally_low|].
      replace (- ln (Rabs (1 - x)) / x) with (dilog_integrand x); [now apply is_derive_dilog_low|].
      unfold dilog_integrand. destruct (Req_EM_T x 0); [contradiction|]. rewrite Rabs_pos_eq by lra. reflexivity.
    + apply (is_derive_ext_loc dilog_high); [apply dilog_locally_high; lra|].
      apply is_derive_dilog_high; lra.
Qed.

(** ** antiderivative of the product of the two component densities *)
Section Antiderivative.
Variables (Li2 : R -> R) (A B c : R).
Hypothesis HLi : dilogarithm Li2.
Hypothesis HA : 0 < A.
Hypothesis HB : 0 < B.
Hypothesis Hc : 0 < c.

Definition Hh (y : R) : R := (y - c) * (ln (Rabs (y - c)) - ln A).
Definition Phi (y : R) : R :=
  (Hh y - Hh 0) * (ln (Rabs y) - ln B) - y * (ln (Rabs y) - ln B) - Hh y + 2 * y - c * Li2 (y / c).

Lemma is_derive_Hh y : y <> c -> is_derive Hh y (ln (Rabs (y - c)) - ln A + 1).
Proof.
  intros Hy. unfold Hh.
  replace (ln (Rabs (y - c)) - ln A + 1) with (1 * (ln (Rabs (y - c)) - ln A) + (y - c) * (1 * / (y - c))) by (field; lra).
  apply (is_derive_mult (fun y => y - c) (fun y => ln (Rabs (y - c)) - ln A) y).
  - auto_derive; auto; ring.
  - apply (is_derive_ext (fun y => ln (Rabs (y - c)) + (- ln A))); [intros; reflexivity|].
    replace (1 * / (y - c)) with (scal 1 (/ (y - c)) + 0).
    2:{ unfold scal; simpl; unfold mult; simpl. ring. }
    apply (is_derive_plus (fun y => ln (Rabs (y - c))) (fun _ => - ln A)); [|apply (is_derive_const (- ln A))].
    apply (is_derive_comp (fun x => ln (Rabs x)) (fun y => y - c)); [apply is_derive_lnabs; lra|auto_derive; auto; ring].
  - intros; apply Rmult_comm.
Qed.

Lemma continuous_Hh y : continuous Hh y.
Proof.
  assert (He : forall y : R, xlnx (y - c) - ln A * (y - c) = Hh y) by (intros; unfold xlnx, Hh; ring).
  apply (continuous_ext (fun y => xlnx (y - c) - ln A * (y - c))); [exact He|].
  apply (continuous_minus (fun y => xlnx (y - c)) (fun y => ln A * (y - c))).
  - apply (continuous_comp (fun y => y - c) xlnx); [|apply continuous_xlnx].
    apply (ex_derive_continuous (fun y => y - c)). auto_derive. auto.
  - apply (ex_derive_continuous (fun y => ln A * (y - c))). auto_derive. auto.
Qed.

Lemma continuous_Phi y : continuous Phi y.
Proof.
  unfold Phi.
  apply (continuous_minus (fun y => (Hh y - Hh 0) * (ln (Rabs y) - ln B) - y * (ln (Rabs y) - ln B) - Hh y + 2 * y)
                          (fun y => c * Li2 (y / c))).
  2:{ apply (continuous_mult (fun _ => c) (fun y => Li2 (y / c))); [apply continuous_const|].
      apply (continuous_comp (fun y => y / c) Li2); [|apply HLi].
      apply (ex_derive_continuous (fun y => y / c)). auto_derive. lra. }
  apply (continuous_plus (fun y => (Hh y - Hh 0) * (ln (Rabs y) - ln B) - y * (ln (Rabs y) - ln B) - Hh y) (fun y => 2 * y)).
  2:{ apply (ex_derive_continuous (fun y => 2 * y)). auto_derive. auto. }
  apply (continuous_minus (fun y => (Hh y - Hh 0) * (ln (Rabs y) - ln B) - y * (ln (Rabs y) - ln B)) Hh).
  2:{ apply continuous_Hh. }
  apply (continuous_minus (fun y => (Hh y - Hh 0) * (ln (Rabs y) - ln B)) (fun y => y * (ln (Rabs y) - ln B))).
  - assert (He : forall y : R, (Hh y - Hh 0) * ln (Rabs (y - 0)) - ln B * (Hh y - Hh 0) = (Hh y - Hh 0) * (ln (Rabs y) - ln B)).
    { intros. rewrite Rminus_0_r. ring. }
    apply (continuous_ext (fun y => (Hh y - Hh 0) * ln (Rabs (y - 0)) - ln B * (Hh y - Hh 0))); [exact He|].
    assert (Hd : continuous (fun y => Hh y - Hh 0) y).
    { apply (continuous_minus Hh (fun _ => Hh 0)); [apply continuous_Hh|apply continuous_const]. }
    apply (continuous_minus (fun y => (Hh y - Hh 0) * ln (Rabs (y - 0))) (fun y => ln B * (Hh y - Hh 0))).
    + destruct (Req_dec y 0) as [->|Hy].
      * eapply continuous_diff_ln. apply is_derive_Hh. lra.
      * apply (continuous_mult (fun y => Hh y - Hh 0) (fun y => ln (Rabs (y - 0)))); [exact Hd|].
        apply (continuous_comp (fun y => y - 0) (fun x => ln (Rabs x))).
        -- apply (ex_derive_continuous (fun y => y - 0)). auto_derive. auto.
        -- apply continuous_lnabs. lra.
    + apply (continuous_mult (fun _ => ln B) (fun y => Hh y - Hh 0)); [apply continuous_const|exact Hd].
  - assert (He : forall y : R, xlnx y - ln B * y = y * (ln (Rabs y) - ln B)) by (intros; unfold xlnx; ring).
    apply (continuous_ext (fun y => xlnx y - ln B * y)); [exact He|].
    apply (continuous_minus xlnx (fun y => ln B * y)); [apply continuous_xlnx|].
    apply (ex_derive_continuous (fun y => ln B * y)). auto_derive. auto.
Qed.

Lemma ln_ratio y : y <> c -> ln (Rabs (1 - y / c)) = ln (Rabs (y - c)) - ln c.
Proof.
  intros Hy. replace (1 - y / c) with (- ((y - c) * / c)) by (field; lra).
  rewrite Rabs_Ropp, Rabs_mult, (Rabs_pos_eq (/ c)) by (apply Rlt_le, Rinv_0_lt_compat; auto).
  rewrite ln_mult, ln_Rinv; auto; [apply Rabs_pos_lt; lra|now apply Rinv_0_lt_compat].
Qed.

Lemma is_derive_Phi y : y <> 0 -> y <> c ->
  is_derive Phi y ((ln (Rabs (y - c)) - ln A) * (ln (Rabs y) - ln B)).
Proof.
  intros H0 Hy.
  assert (Hl : is_derive (fun y => ln (Rabs y) - ln B) y (/ y)).
  { replace (/ y) with (/ y - 0) by ring. apply (is_derive_minus (fun y => ln (Rabs y)) (fun _ => ln B)).
    - now apply is_derive_lnabs.
    - apply (is_derive_const (ln B)). }
  assert (HH : is_derive (fun y => Hh y - Hh 0) y (ln (Rabs (y - c)) - ln A + 1)).
  { replace (ln (Rabs (y - c)) - ln A + 1) with (ln (Rabs (y - c)) - ln A + 1 - 0) by ring.
    apply (is_derive_minus Hh (fun _ => Hh 0)); [now apply is_derive_Hh|apply (is_derive_const (Hh 0))]. }
  assert (HL : is_derive (fun y => c * Li2 (y / c)) y (- c * ln (Rabs (1 - y / c)) / y)).
  { replace (- c * ln (Rabs (1 - y / c)) / y) with (scal c (scal (/ c) (- ln (Rabs (1 - y / c)) / (y / c)))).
    2:{ unfold scal; simpl; unfold mult; simpl. field. split; lra. }
    apply (is_derive_scal (fun y => Li2 (y / c)) y c).
    apply (is_derive_comp Li2 (fun y => y / c)).
    - apply HLi.
      + intros E. apply H0. apply Rmult_eq_reg_r with (/ c); [unfold Rdiv in E; lra|]. apply Rinv_neq_0_compat; lra.
      + intros E. apply Hy. apply Rmult_eq_reg_r with (/ c); [unfold Rdiv in E; rewrite E; field; lra|]. apply Rinv_neq_0_compat; lra.
    - auto_derive; [lra|field; lra]. }
  unfold Phi.
  set (lc := ln (Rabs (y - c))) in *. set (ly := ln (Rabs y)) in *.
  assert (EH : Hh y - Hh 0 = (y - c) * (lc - ln A) + c * (ln c - ln A)).
  { unfold Hh. fold lc. rewrite Rminus_0_l, Rabs_Ropp, (Rabs_pos_eq c) by lra. ring. }
  replace ((lc - ln A) * (ly - ln B))
    with ((((lc - ln A + 1) * (ly - ln B) + (Hh y - Hh 0) * / y) - (1 * (ly - ln B) + y * / y) - (lc - ln A + 1) + 2)
          - (- c * ln (Rabs (1 - y / c)) / y)).
  2:{ rewrite EH, ln_ratio by exact Hy. fold lc. field. exact H0. }
  apply (is_derive_minus (fun y => (Hh y - Hh 0) * (ln (Rabs y) - ln B) - y * (ln (Rabs y) - ln B) - Hh y + 2 * y)
                          (fun y => c * Li2 (y / c))); [|exact HL].
  apply (is_derive_plus (fun y => (Hh y - Hh 0) * (ln (Rabs y) - ln B) - y * (ln (Rabs y) - ln B) - Hh y) (fun y => 2 * y)).
  2:{ auto_derive; auto; ring. }
  apply (is_derive_minus (fun y => (Hh y - Hh 0) * (ln (Rabs y) - ln B) - y * (ln (Rabs y) - ln B)) Hh).
  2:{ now apply is_derive_Hh. }
  apply (is_derive_minus (fun y => (Hh y - Hh 0) * (ln (Rabs y) - ln B)) (fun y => y * (ln (Rabs y) - ln B))).
  - apply (is_derive_mult (fun y => Hh y - Hh 0) (fun y => ln (Rabs y) - ln B) y); auto. intros; apply Rmult_comm.
  - apply (is_derive_mult (fun y => y) (fun y => ln (Rabs y) - ln B) y); auto; [auto_derive; auto|]. intros; apply Rmult_comm.
Qed.
End Antiderivative.

(** the same for c = 0 *)
Section Zero.
Variables (A B : R).
Definition Phi0 (y : R) : R :=
  y * ((ln (Rabs y) - ln A) * (ln (Rabs y) - ln B)) - y * (ln (Rabs y) - ln A) - y * (ln (Rabs y) - ln B) + 2 * y.

Lemma xln2_continuous x : continuous (fun y => y * (ln (Rabs y) * ln (Rabs y))) x.
Proof.
  destruct (Req_dec x 0) as [->|Hx].
  - apply continuity_pt_filterlim. intros eps Heps.
    pose proof (continuous_xlnx 0) as Hc0. apply continuity_pt_filterlim in Hc0.
    assert (He2 : 0 < sqrt eps / 2) by (assert (0 < sqrt eps) by (apply sqrt_lt_R0; lra); lra).
    destruct (Hc0 (sqrt eps / 2) He2) as (d & Hd & Hb).
    exists (d * d). split; [nra|]. intros y (Hy & Hdist). unfold dist in *; simpl in *; unfold R_dist in *.
    assert (Hy0 : y <> 0) by (destruct Hy; congruence).
    rewrite Rmult_0_l, !Rminus_0_r in *.
    assert (Hya : 0 < Rabs y) by (now apply Rabs_pos_lt). set (s := sqrt (Rabs y)).
    assert (Hs : 0 < s) by (apply sqrt_lt_R0; auto).
    assert (Hss : s * s = Rabs y) by (apply sqrt_sqrt; lra).
    assert (Hsd : s < d). { destruct (Rlt_dec s d); auto. exfalso. nra. }
    specialize (Hb s). unfold xlnx in Hb at 2. rewrite Rmult_0_l, !Rminus_0_r in Hb.
    assert (Hbs : Rabs (xlnx s) < sqrt eps / 2).
    { apply Hb. split; [split; [exact I|lra]|]. rewrite Rabs_pos_eq by lra. exact Hsd. }
    assert (Hl : ln (Rabs y) = 2 * ln s) by (rewrite <- Hss, ln_mult by auto; ring).
    rewrite Hl, Rabs_mult.
    assert (E : Rabs y * Rabs (2 * ln s * (2 * ln s)) = 4 * (Rabs (xlnx s) * Rabs (xlnx s))).
    { unfold xlnx. rewrite (Rabs_pos_eq s) by lra. rewrite (Rabs_pos_eq (2 * ln s * (2 * ln s))) by nra.
      rewrite <- Rabs_mult. rewrite (Rabs_pos_eq (s * ln s * (s * ln s))) by nra. rewrite <- Hss. ring. }
    rewrite E. pose proof (Rabs_pos (xlnx s)). pose proof (sqrt_sqrt eps ltac:(lra)). nra.
  - apply (continuous_mult (fun y => y) (fun y => ln (Rabs y) * ln (Rabs y))); [apply continuous_id|].
    apply (continuous_mult (fun y => ln (Rabs y)) (fun y => ln (Rabs y))); now apply continuous_lnabs.
Qed.

Lemma continuous_Phi0 y : continuous Phi0 y.
Proof.
  assert (He : forall y : R, y * (ln (Rabs y) * ln (Rabs y)) - (ln A + ln B + 2) * xlnx y
                             + (ln A * ln B + ln A + ln B + 2) * y = Phi0 y).
  { intros; unfold xlnx, Phi0; ring. }
  apply (continuous_ext (fun y => y * (ln (Rabs y) * ln (Rabs y)) - (ln A + ln B + 2) * xlnx y
                             + (ln A * ln B + ln A + ln B + 2) * y)); [exact He|].
  apply (continuous_plus (fun y => y * (ln (Rabs y) * ln (Rabs y)) - (ln A + ln B + 2) * xlnx y)
                         (fun y => (ln A * ln B + ln A + ln B + 2) * y)).
  - apply (continuous_minus (fun y => y * (ln (Rabs y) * ln (Rabs y))) (fun y => (ln A + ln B + 2) * xlnx y)).
    + apply xln2_continuous.
    + apply (continuous_mult (fun _ => ln A + ln B + 2) xlnx); [apply continuous_const|apply continuous_xlnx].
  - apply (ex_derive_continuous (fun y => (ln A * ln B + ln A + ln B + 2) * y)). auto_derive. auto.
Qed.

Lemma is_derive_Phi0 y : y <> 0 -> is_derive Phi0 y ((ln (Rabs y) - ln A) * (ln (Rabs y) - ln B)).
Proof.
  intros H0.
  assert (Hl : forall k, is_derive (fun y => ln (Rabs y) - k) y (/ y)).
  { intros k. replace (/ y) with (/ y - 0) by ring. apply (is_derive_minus (fun y => ln (Rabs y)) (fun _ => k)).
    - now apply is_derive_lnabs.
    - apply (is_derive_const k). }
  assert (Hy : forall k, is_derive (fun y => y * (ln (Rabs y) - k)) y (1 * (ln (Rabs y) - k) + y * / y)).
  { intros k. apply (is_derive_mult (fun y => y) (fun y => ln (Rabs y) - k) y); auto; [auto_derive; auto|]. intros; apply Rmult_comm. }
  unfold Phi0. set (ly := ln (Rabs y)) in *.
  replace ((ly - ln A) * (ly - ln B))
    with ((1 * ((ly - ln A) * (ly - ln B)) + y * (/ y * (ly - ln B) + (ly - ln A) * / y))
          - (1 * (ly - ln A) + y * / y) - (1 * (ly - ln B) + y * / y) + 2) by (field; exact H0).
  apply (is_derive_plus (fun y => y * ((ln (Rabs y) - ln A) * (ln (Rabs y) - ln B)) - y * (ln (Rabs y) - ln A) - y * (ln (Rabs y) - ln B)) (fun y => 2 * y)).
  2:{ auto_derive; auto; ring. }
  apply (is_derive_minus (fun y => y * ((ln (Rabs y) - ln A) * (ln (Rabs y) - ln B)) - y * (ln (Rabs y) - ln A)) (fun y => y * (ln (Rabs y) - ln B))); [|apply Hy].
  apply (is_derive_minus (fun y => y * ((ln (Rabs y) - ln A) * (ln (Rabs y) - ln B))) (fun y => y * (ln (Rabs y) - ln A))); [|apply Hy].
  apply (is_derive_mult (fun y => y) (fun y => (ln (Rabs y) - ln A) * (ln (Rabs y) - ln B)) y); [auto_derive; auto| |intros; apply Rmult_comm].
  apply (is_derive_mult (fun y => ln (Rabs y) - ln A) (fun y => ln (Rabs y) - ln B) y); auto. intros; apply Rmult_comm.
Qed.
End Zero.

(** ** the component density *)
Lemma component_density_at amax z : 0 < amax -> z <> 0 -> Rabs z < amax ->
  component_density amax z = (ln amax - ln (Rabs z)) / (2 * amax).
Proof.
  intros Hm Hz Hlt. unfold component_density. destruct (Req_EM_T z 0); [contradiction|].
  destruct (Rlt_dec (Rabs z) amax); [|contradiction].
  assert (Hp : 0 < Rabs z) by (now apply Rabs_pos_lt).
  apply is_RInt_unique.
  replace ((ln amax - ln (Rabs z)) / (2 * amax)) with (minus (ln amax / (2 * amax)) (ln (Rabs z) / (2 * amax))).
  2:{ unfold minus, plus, opp; simpl. field. lra. }
  apply (is_RInt_derive (fun a => ln a / (2 * amax))).
  - intros x Hx. rewrite Rmin_left in Hx by lra. auto_derive; [lra|field; lra].
  - intros x Hx. rewrite Rmin_left in Hx by lra.
    apply (ex_derive_continuous (fun a => / amax * / (2 * a))). auto_derive. lra.
Qed.
Lemma component_density_out amax z : amax <= Rabs z -> component_density amax z = 0.
Proof.
  intros H. unfold component_density. destruct (Req_EM_T z 0); auto. destruct (Rlt_dec (Rabs z) amax); auto. lra.
Qed.

(** ** from an antiderivative to the density *)
Lemma density_from_anti q amax c (P : R -> R) :
  0 < q <= 1 -> 0 < amax -> 0 <= c ->
  let A := amax / (1 + q) in let B := q * amax / (1 + q) in
  (forall y, continuous P y) ->
  (forall y, y <> 0 -> y <> c -> is_derive P y ((ln (Rabs (y - c)) - ln A) * (ln (Rabs y) - ln B))) ->
  chi_eff_density amax q c ((P (Rmax B (c - A)) - P (Rmax (- B) (c - A))) / (4 * A * B)).
Proof.
  intros Hq Hm Hc A B HcP HdP.
  assert (HA : 0 < A) by (apply Rdiv_lt_0_compat; lra).
  assert (HB : 0 < B) by (apply Rdiv_lt_0_compat; nra).
  assert (EA : (1 + q) * A = amax) by (unfold A; field; lra).
  assert (EB : (1 + q) * B = q * amax) by (unfold B; field; lra).
  assert (HBA : B <= A) by nra.
  assert (HK : 0 < 4 * A * B) by nra.
  unfold chi_eff_density, newton_integral.
  exists (fun z => / (4 * A * B) * P (Rmax (q / (1 + q) * z) (c - A))).
  exists [0; (1 + q) / q * c; (1 + q) / q * (c - A)].
  assert (Hr : 0 < q / (1 + q)) by (apply Rdiv_lt_0_compat; lra).
  split; [|split].
  - intros x _. apply (continuous_mult (fun _ => / (4 * A * B)) (fun z => P (Rmax (q / (1 + q) * z) (c - A)))); [apply continuous_const|].
    apply (continuous_comp (fun z => Rmax (q / (1 + q) * z) (c - A)) P); [|apply HcP].
    apply (continuous_ext (fun z => (q / (1 + q) * z + (c - A) + Rabs (q / (1 + q) * z - (c - A))) / 2)).
    + assert (He : forall u v : R, (u + v + Rabs (u - v)) / 2 = Rmax u v).
      { intros u v. unfold Rmax, Rabs. destruct (Rle_dec u v); destruct (Rcase_abs (u - v)); lra. }
      intros z. apply He.
    + apply (continuous_mult (fun z => q / (1 + q) * z + (c - A) + Rabs (q / (1 + q) * z - (c - A))) (fun _ => / 2)); [|apply continuous_const].
      apply (continuous_plus (fun z => q / (1 + q) * z + (c - A)) (fun z => Rabs (q / (1 + q) * z - (c - A)))).
      * apply (ex_derive_continuous (fun z => q / (1 + q) * z + (c - A))). auto_derive. lra.
      * apply (continuous_comp (fun z => q / (1 + q) * z - (c - A)) Rabs).
        -- apply (ex_derive_continuous (fun z => q / (1 + q) * z - (c - A))). auto_derive. lra.
        -- apply continuous_Rabs.
  - intros z Hz Hn. set (y := q / (1 + q) * z).
    assert (Ey : (1 + q) * y = q * z) by (unfold y; field; lra).
    assert (Hz0 : z <> 0) by (intros ->; apply Hn; simpl; auto).
    assert (Hyc : y <> c). { intros E'. apply Hn. right; left. rewrite <- E'. unfold y. field. lra. }
    assert (HyA : y <> c - A). { intros E'. apply Hn. right; right; left. rewrite <- E'. unfold y. field. lra. }
    assert (Hy0 : y <> 0). { unfold y. apply Rmult_integral_contrapositive_currified; lra. }
    assert (HyB : - B < y < B). { split; nra. }
    assert (Ez1 : (1 + q) * c - q * z = (1 + q) * (c - y)) by lra.
    destruct (Rlt_dec y (c - A)) as [Hlow|Hhigh].
    + rewrite (component_density_out amax ((1 + q) * c - q * z)).
      2:{ rewrite Ez1, Rabs_pos_eq by nra. nra. }
      rewrite !Rmult_0_r.
      apply (is_derive_ext_loc (fun _ => / (4 * A * B) * P (c - A))); [|apply (is_derive_const (/ (4 * A * B) * P (c - A)))].
      assert (Hd : 0 < ((c - A) - y) / (q / (1 + q))) by (apply Rdiv_lt_0_compat; lra).
      exists (mkposreal _ Hd). intros w Hw.
      unfold ball in Hw; simpl in Hw; unfold AbsRing_ball, minus, plus, opp, abs in Hw; simpl in Hw.
      apply Rabs_def2 in Hw. rewrite Rmax_right; auto.
      assert (q / (1 + q) * (w - z) < (c - A) - y); [|unfold y in *; lra].
      replace ((c - A) - y) with (q / (1 + q) * (((c - A) - y) / (q / (1 + q)))) by (field; lra).
      apply Rmult_lt_compat_l; lra.
    + assert (Hhigh' : c - A < y) by lra.
      assert (Hz1 : (1 + q) * c - q * z <> 0) by (rewrite Ez1; apply Rmult_integral_contrapositive_currified; lra).
      assert (Hz1a : Rabs ((1 + q) * c - q * z) < amax).
      { rewrite Ez1, Rabs_mult, (Rabs_pos_eq (1 + q)) by lra. rewrite <- EA. apply Rmult_lt_compat_l; [lra|].
        apply Rabs_def1; lra. }
      assert (Hza : Rabs z < amax) by (apply Rabs_def1; lra).
      rewrite (component_density_at amax z), (component_density_at amax ((1 + q) * c - q * z)) by auto.
      assert (L1 : ln amax - ln (Rabs z) = ln B - ln (Rabs y)).
      { assert (Eyz : Rabs y = q / (1 + q) * Rabs z) by (unfold y; rewrite Rabs_mult, (Rabs_pos_eq (q / (1 + q))); lra).
        assert (EBm : B = q / (1 + q) * amax) by (unfold B; field; lra).
        rewrite Eyz, EBm, !ln_mult; auto; [ring|now apply Rabs_pos_lt]. }
      assert (L2 : ln amax - ln (Rabs ((1 + q) * c - q * z)) = ln A - ln (Rabs (y - c))).
      { rewrite Ez1, Rabs_mult, (Rabs_pos_eq (1 + q)), (Rabs_minus_sym c y) by lra. rewrite <- EA, !ln_mult; auto; try lra.
        apply Rabs_pos_lt. lra. }
      rewrite L1, L2.
      apply (is_derive_ext_loc (fun w => / (4 * A * B) * P (q / (1 + q) * w))).
      { assert (Hd : 0 < (y - (c - A)) / (q / (1 + q))) by (apply Rdiv_lt_0_compat; lra).
        exists (mkposreal _ Hd). intros w Hw.
        unfold ball in Hw; simpl in Hw; unfold AbsRing_ball, minus, plus, opp, abs in Hw; simpl in Hw.
        apply Rabs_def2 in Hw. rewrite Rmax_left; auto.
        assert (q / (1 + q) * (z - w) < y - (c - A)); [|unfold y in *; lra].
        replace (y - (c - A)) with (q / (1 + q) * ((y - (c - A)) / (q / (1 + q)))) by (field; lra).
        apply Rmult_lt_compat_l; lra. }
      replace ((ln B - ln (Rabs y)) / (2 * amax) * ((1 + q) * ((ln A - ln (Rabs (y - c))) / (2 * amax))))
        with (/ (4 * A * B) * (q / (1 + q) * ((ln (Rabs (y - c)) - ln A) * (ln (Rabs y) - ln B)))).
      2:{ unfold A at 1, B at 1. field. repeat split; lra. }
      apply (is_derive_scal (fun w => P (q / (1 + q) * w)) z (/ (4 * A * B))).
      apply (is_derive_comp P (fun w => q / (1 + q) * w)).
      * fold y. apply HdP; auto.
      * auto_derive; [lra|field; lra].
  - replace (q / (1 + q) * amax) with B by (unfold B; field; lra).
    replace (q / (1 + q) * - amax) with (- B) by (unfold B; field; lra).
    unfold Rdiv. ring.
Qed.

(** ** the values computed by the code *)
Lemma xdiv_fin x y : y <> 0 -> xdiv (Fin x) (Fin y) = Fin (x / y).
Proof. intros H. unfold xdiv. destruct (Req_EM_T y 0); [contradiction|reflexivity]. Qed.
Lemma xln_fin x : 0 < x -> xln (Fin x) = Fin (ln x).
Proof. intros H. unfold xln. destruct (Rlt_dec 0 x); [reflexivity|contradiction]. Qed.

Lemma ln_quot x y : 0 < x -> 0 < y -> ln (x / y) = ln x - ln y.
Proof. intros Hx Hy. unfold Rdiv. rewrite ln_mult, ln_Rinv; auto. now apply Rinv_0_lt_compat. Qed.

Lemma lower_value Li2 c q amax : 0 < q <= 1 -> 0 < amax -> 0 < c ->
  let A := amax / (1 + q) in let B := q * amax / (1 + q) in
  c <> B ->
  lower Li2 c q amax = Fin ((Phi Li2 A B c B - Phi Li2 A B c (- B)) / (4 * A * B)).
Proof.
  intros Hq Hm Hc A B Hne.
  assert (HA : 0 < A) by (apply Rdiv_lt_0_compat; lra).
  assert (HB : 0 < B) by (apply Rdiv_lt_0_compat; nra).
  assert (EB : B = q * A) by (unfold A, B; field; lra).
  assert (Hs : 0 < B / c) by (now apply Rdiv_lt_0_compat).
  assert (Es : B / c <> 1). { intros E. apply Hne. apply Rmult_eq_reg_r with (/ c); [|apply Rinv_neq_0_compat; lra].
    fold (B / c). rewrite E. field. lra. }
  unfold lower, secondary_ratio, max_secondary, max_primary. fold A B.
  rewrite xdiv_fin by lra. cbn [xmul]. rewrite (xdiv_fin 1) by nra. unfold xsub at 3. cbn [xopp xadd xabs].
  assert (Hd : 1 / (B / c * (B / c)) + - (1) = (c - B) * (c + B) / (B * B)) by (field; lra).
  assert (Hcb : 0 < Rabs (c - B)) by (apply Rabs_pos_lt; lra).
  assert (HRd : Rabs (1 / (B / c * (B / c)) + - (1)) = Rabs (c - B) * (c + B) / (B * B)).
  { rewrite Hd. unfold Rdiv. rewrite !Rabs_mult, (Rabs_pos_eq (c + B)) by lra. rewrite (Rabs_pos_eq (/ (B * B))); auto.
    apply Rlt_le, Rinv_0_lt_compat. nra. }
  rewrite HRd. rewrite (xln_fin (Rabs (c - B) * (c + B) / (B * B))).
  2:{ apply Rdiv_lt_0_compat; nra. }
  rewrite (xln_fin (q * q)) by nra. unfold xsub. cbn [xopp xadd xabs].
  rewrite xdiv_fin by lra.
  assert (H1s : Rabs (1 + - (B / c)) = Rabs (c - B) / c).
  { replace (1 + - (B / c)) with ((c - B) * / c) by (field; lra). rewrite Rabs_mult, (Rabs_pos_eq (/ c)); auto.
    apply Rlt_le, Rinv_0_lt_compat. exact Hc. }
  rewrite H1s. replace (1 + B / c) with ((c + B) / c) by (field; lra).
  replace (Rabs (c - B) / c / ((c + B) / c)) with (Rabs (c - B) / (c + B)) by (field; lra).
  rewrite xln_fin by (apply Rdiv_lt_0_compat; lra). cbn [xli2 xopp xadd nan_to_num].
  rewrite xdiv_fin by lra. cbn [xadd]. rewrite xdiv_fin by lra. f_equal.
  rewrite !ln_quot by nra. rewrite !ln_mult by nra.
  unfold Phi, Hh.
  rewrite (Rabs_pos_eq B) by lra. rewrite Rabs_Ropp, (Rabs_pos_eq B) by lra.
  rewrite (Rabs_minus_sym B c). replace (- B - c) with (- (c + B)) by ring. rewrite Rabs_Ropp, (Rabs_pos_eq (c + B)) by lra.
  replace (- B / c) with (- (B / c)) by (field; lra).
  assert (LB : ln B = ln q + ln A) by (rewrite EB, ln_mult by lra; reflexivity).
  rewrite LB. field. repeat split; lra.
Qed.

Lemma boundary_value m c : 0 < m -> 0 < c ->
  exists t, boundary_term (Fin (m / c)) = Fin t /\ (c - m) * t = (c - m) * (ln (Rabs (c - m)) - ln m)
            /\ (c <> m -> t = ln (Rabs (c - m)) - ln m).
Proof.
  intros Hm Hc. unfold boundary_term. assert (Hs : 0 < m / c) by (now apply Rdiv_lt_0_compat).
  rewrite xdiv_fin by lra. unfold xsub. cbn [xopp xadd xabs is_one].
  replace (1 / (m / c) + - (1)) with ((c - m) * / m) by (field; lra).
  rewrite Rabs_mult, (Rabs_pos_eq (/ m)) by (apply Rlt_le, Rinv_0_lt_compat; exact Hm).
  destruct (Req_EM_T (m / c) 1) as [E|E].
  - assert (Ecm : c = m). { apply Rmult_eq_reg_l with (/ c); [|apply Rinv_neq_0_compat; lra].
      rewrite Rinv_l by lra. unfold Rdiv in E. lra. }
    cbn [xadd]. subst m. rewrite Rminus_diag_eq, Rabs_R0, Rmult_0_l, Rplus_0_l by reflexivity.
    exists (ln 1). rewrite xln_fin by lra. split; [reflexivity|]. split; [ring|congruence].
  - assert (Hcm : c <> m). { intros ->. apply E. field. lra. }
    cbn [xadd]. rewrite Rplus_0_r. assert (0 < Rabs (c - m)) by (apply Rabs_pos_lt; lra).
    assert (0 < / m) by (now apply Rinv_0_lt_compat).
    rewrite xln_fin by nra. eexists; split; [reflexivity|]. rewrite ln_mult, ln_Rinv by auto. split; intros; ring.
Qed.

Lemma upper_value Li2 c q amax : 0 < q <= 1 -> 0 < amax -> 0 < c ->
  let A := amax / (1 + q) in let B := q * amax / (1 + q) in
  upper Li2 c q amax = Fin ((Phi Li2 A B c B - Phi Li2 A B c (c - A)) / (4 * A * B)).
Proof.
  intros Hq Hm Hc A B.
  assert (HA : 0 < A) by (apply Rdiv_lt_0_compat; lra).
  assert (HB : 0 < B) by (apply Rdiv_lt_0_compat; nra).
  assert (EB : B = q * A) by (unfold A, B; field; lra).
  assert (EM : amax = A + B) by (unfold A, B; field; lra).
  assert (ED : max_difference q amax = A - B) by (unfold max_difference, A, B; field; lra).
  unfold upper, secondary_ratio, primary_ratio. rewrite ED. unfold max_secondary, max_primary. fold A B.
  rewrite !xdiv_fin by lra.
  destruct (boundary_value A c HA Hc) as (ta & -> & Hta & Hta').
  destruct (boundary_value B c HB Hc) as (tb & -> & Htb & Htb').
  rewrite (xln_fin q) by lra. rewrite (xln_fin (A / c)) by (now apply Rdiv_lt_0_compat).
  unfold xsub. cbn [xopp xadd xmul xli2]. rewrite xdiv_fin by nra. f_equal.
  rewrite (ln_quot A c) by auto.
  unfold Phi, Hh.
  rewrite (Rabs_pos_eq B) by lra. rewrite (Rabs_minus_sym B c).
  replace (c - A - c) with (- A) by ring. rewrite Rabs_Ropp, (Rabs_pos_eq A) by lra.
  rewrite Rminus_0_l, Rabs_Ropp, (Rabs_pos_eq c) by lra.
  replace ((c - A) / c) with (1 + - (A / c)) by (field; lra).
  assert (LB : ln B = ln q + ln A) by (rewrite EB, ln_mult by lra; reflexivity).
  set (la := ln (Rabs (c - A))) in *. set (lb := ln (Rabs (c - B))) in *.
  apply (f_equal2 Rdiv); [|reflexivity].
  assert (Hx : c * (ln A + - ln c) * (ta + - ln q) = c * (ln A - ln c) * (la - ln A - ln q)).
  { destruct (Req_dec c A) as [E|E]; [rewrite E; ring|]. rewrite (Hta' E). ring. }
  unfold Rminus in *. rewrite Hx. rewrite Hta, Htb, LB.
  rewrite EM.
  ring.
Qed.

Lemma lower_zero Li2 q amax : 0 < q < 1 -> 0 < amax ->
  let A := amax / (1 + q) in let B := q * amax / (1 + q) in
  lower Li2 0 q amax = Fin ((Phi0 A B B - Phi0 A B (- B)) / (4 * A * B)).
Proof.
  intros Hq Hm A B.
  assert (HA : 0 < A) by (apply Rdiv_lt_0_compat; lra).
  assert (HB : 0 < B) by (apply Rdiv_lt_0_compat; nra).
  assert (EB : B = q * A) by (unfold A, B; field; lra).
  assert (Hs : secondary_ratio 0 q amax = PInf).
  { unfold secondary_ratio, max_secondary. fold B. unfold xdiv, xinf_times. destruct (Req_EM_T 0 0); [|congruence].
    destruct (Rlt_dec 0 B); [reflexivity|contradiction]. }
  unfold lower. rewrite Hs. unfold max_primary. fold A. rewrite (xln_fin (q * q)) by nra.
  unfold xsub. cbn [xmul xdiv xopp xadd xabs xli2 xln nan_to_num].
  rewrite Rplus_0_l, Rabs_Ropp, Rabs_R1. destruct (Rlt_dec 0 1); [|lra]. cbn [xopp xadd].
  rewrite ln_1. rewrite xdiv_fin by lra. f_equal.
  unfold Phi0. rewrite Rabs_Ropp, (Rabs_pos_eq B) by lra.
  rewrite ln_mult by lra.
  assert (LB : ln B = ln q + ln A) by (rewrite EB, ln_mult by lra; reflexivity).
  rewrite LB. rewrite EB. field. lra.
Qed.
