(** C151: what the networks of the training script learn from scattered targets. *)
From Coq Require Import List ZArith Reals Lia Lra.
From Verif Require Import Model_Train Props_Train Model_Network Props_Network Model_Loss Spec_Loss.
Import ListNotations.
Open Scope R_scope.

Lemma loss_entries f model c : forall xs ys, length xs = length ys -> always model xs c ->
  concat (elementwise f (column ys) (map model xs)) = map (fun y => f y c) ys.
Proof.
  induction xs as [|x xs IH]; intros [|y ys] L A; try discriminate; [reflexivity|].
  unfold elementwise, column in *. cbn [map combine concat fst snd]. rewrite (A x (or_introl eq_refl)). cbn [combine map app fst snd].
  f_equal. apply IH; [now injection L|]. intros z Hz. apply A. now right.
Qed.
Lemma loss_average f model c xs ys : length xs = length ys -> always model xs c ->
  jnp_mean (elementwise f (column ys) (predict model xs 256)) = average (map (fun y => f y c) ys).
Proof. intros L A. rewrite predict_map. unfold jnp_mean, average. now rewrite (loss_entries f model c xs ys L A). Qed.
Lemma count_pos {A} (ys : list A) : ys <> [] -> 0 < INR (length ys).
Proof. intros H. destruct ys; [congruence|]. apply lt_0_INR. cbn. lia. Qed.
Lemma sum_linear a b (g : R -> R) : forall ys : list R, fold_right Rplus 0 (map (fun y => a * g y + b) ys) = a * fold_right Rplus 0 (map g ys) + b * INR (length ys).
Proof. induction ys as [|y ys IH]; [cbn; lra|]. cbn [map fold_right length]. rewrite IH, S_INR. ring. Qed.
Lemma average_linear a b (g : R -> R) (ys : list R) : ys <> [] -> average (map (fun y => a * g y + b) ys) = a * average (map g ys) + b.
Proof. intros N. pose proof (count_pos ys N). unfold average. rewrite sum_linear, !map_length. field. lra. Qed.
Lemma sum_squares m c : forall ys : list R, fold_right Rplus 0 (map (fun y => (y - c) ^ 2) ys)
  = fold_right Rplus 0 (map (fun y => (y - m) ^ 2) ys) + 2 * (m - c) * (fold_right Rplus 0 ys - INR (length ys) * m) + INR (length ys) * (m - c) ^ 2.
Proof. induction ys as [|y ys IH]; [cbn; lra|]. cbn [map fold_right length]. rewrite IH, S_INR. ring. Qed.

(** squared errors: the loss of the value c for rows with scattered targets is their variance plus (c - mean)^2 *)
Theorem C151_mse : forall model xs ys c, ys <> [] -> length xs = length ys -> always model xs c ->
  mse_loss model xs (column ys) = average (map (fun y => (y - average ys) ^ 2) ys) + (c - average ys) ^ 2.
Proof.
  intros model xs ys c N L A. unfold mse_loss. rewrite (loss_average _ model c xs ys L A). pose proof (count_pos ys N) as P.
  unfold average at 1 2. rewrite (sum_squares (average ys) c ys), !map_length.
  replace (fold_right Rplus 0 ys - INR (length ys) * average ys) with 0 by (unfold average; field; lra). field. lra.
Qed.
Print Assumptions C151_mse.

Lemma sum_app l1 l2 : fold_right Rplus 0 (l1 ++ l2) = fold_right Rplus 0 l1 + fold_right Rplus 0 l2.
Proof. induction l1 as [|a l IH]; cbn [app fold_right]; [ring|]. rewrite IH. ring. Qed.
Lemma row_sum (f : R -> R -> R) o : forall y u : list R, length y = o -> length u = o ->
  length (map (fun q : R * R => f (fst q) (snd q)) (combine y u)) = o
  /\ fold_right Rplus 0 (map (fun q => f (fst q) (snd q)) (combine y u)) = fold_right Rplus 0 (map (fun j => f (nth j y 0) (nth j u 0)) (seq 0 o)).
Proof.
  induction o as [|o IH]; intros [|b y] [|v u] H1 H2; try discriminate; [split; reflexivity|].
  destruct (IH y u) as [I1 I2]; [now injection H1|now injection H2|]. cbn [combine map fold_right length fst snd seq nth].
  split; [now rewrite I1|]. rewrite I2, <- seq_shift, map_map. reflexivity.
Qed.
Lemma entries_sum f (model : list R -> list R) o : forall xs ys : list (list R), length xs = length ys -> (forall x, In x xs -> length (model x) = o) -> (forall y, In y ys -> length y = o) ->
  length (concat (elementwise f ys (map model xs))) = (length xs * o)%nat
  /\ fold_right Rplus 0 (concat (elementwise f ys (map model xs)))
     = fold_right Rplus 0 (map (fun k => fold_right Rplus 0 (map (fun j => f (nth j (nth k ys []) 0) (nth j (model (nth k xs [])) 0)) (seq 0 o))) (seq 0 (length xs))).
Proof.
  induction xs as [|x xs IH]; intros [|y ys] L Hx Hy; try discriminate; [split; reflexivity|].
  destruct (IH ys) as [I1 I2]; [now injection L|intros; apply Hx; now right|intros; apply Hy; now right|].
  destruct (row_sum f o y (model x) (Hy y (or_introl eq_refl)) (Hx x (or_introl eq_refl))) as [R1 R2].
  unfold elementwise in *. cbn [map combine concat fst snd length seq nth fold_right]. rewrite app_length, sum_app, R1, R2, I1, I2.
  split; [reflexivity|]. f_equal. rewrite <- seq_shift, map_map. reflexivity.
Qed.
(** for any number o of outputs the losses are the means over all rows and outputs *)
Theorem C151_entries : forall model xs ys o eps, xs <> [] -> length xs = length ys -> (1 <= o)%nat ->
  (forall x, In x xs -> length (model x) = o) -> (forall y, In y ys -> length y = o) ->
  INR (length xs) * INR o * mse_loss model xs ys
    = fold_right Rplus 0 (map (fun k => fold_right Rplus 0 (map (fun j => (nth j (nth k ys []) 0 - nth j (model (nth k xs [])) 0) ^ 2) (seq 0 o))) (seq 0 (length xs)))
  /\ INR (length xs) * INR o * bce_logits_loss model xs ys eps
    = fold_right Rplus 0 (map (fun k => fold_right Rplus 0 (map (fun j => bce_logits eps (nth j (model (nth k xs [])) 0) (nth j (nth k ys []) 0)) (seq 0 o))) (seq 0 (length xs))).
Proof.
  intros model xs ys o eps N L Ho Hx Hy. pose proof (count_pos xs N) as P. assert (Po : 0 < INR o) by (apply lt_0_INR; lia).
  unfold mse_loss, bce_logits_loss, jnp_mean. rewrite !predict_map.
  destruct (entries_sum (fun y out => (y - out) ^ 2) model o xs ys L Hx Hy) as [A1 A2].
  destruct (entries_sum (fun y out => bce_logits eps out y) model o xs ys L Hx Hy) as [B1 B2].
  rewrite A1, A2, B1, B2, mult_INR. split; field; lra.
Qed.
Print Assumptions C151_entries.
Example C151_entries_nonvacuous : mse_loss (fun x => x) [[1; 2]; [3; 4]] [[1; 2]; [3; 6]] = 1.
Proof.
  destruct (C151_entries (fun x => x) [[1; 2]; [3; 4]] [[1; 2]; [3; 6]] 2 0) as [E _]; try discriminate; try reflexivity; try lia;
    try (intros x H; cbn in H; destruct H as [<-|[<-|[]]]; reflexivity). cbn in E. lra.
Qed.

(** no loss exactly when every prediction is the target, for any number of outputs *)
Theorem C151_zero : forall model xs ys o, xs <> [] -> length xs = length ys -> (1 <= o)%nat ->
  (forall x, In x xs -> length (model x) = o) -> (forall y, In y ys -> length y = o) ->
  0 <= mse_loss model xs ys /\ (mse_loss model xs ys = 0 <-> map model xs = ys).
Proof.
  intros model xs ys o N L Ho Hx Hy. unfold mse_loss, jnp_mean. rewrite predict_map.
  set (E := concat _). assert (P : forall a, In a E -> 0 <= a).
  { unfold E, elementwise. intros a Ha. apply in_concat in Ha. destruct Ha as (r & Hr & Ha). apply in_map_iff in Hr. destruct Hr as (p & <- & _).
    apply in_map_iff in Ha. destruct Ha as (q & <- & _). apply pow2_ge_0. }
  assert (Q : forall l, (forall a, In a l -> 0 <= a) -> 0 <= fold_right Rplus 0 l /\ (fold_right Rplus 0 l = 0 <-> forall a, In a l -> a = 0)).
  { clear. induction l as [|b l IH]; intros H; cbn [fold_right].
    - split; [lra|]. split; [intros _ a []|reflexivity].
    - destruct IH as [I1 I2]; [intros; apply H; now right|]. pose proof (H b (or_introl eq_refl)) as B. split; [lra|]. split.
      + intros Z a [<-|Ha]; [lra|]. apply I2; [lra|exact Ha].
      + intros Z. rewrite (Z b (or_introl eq_refl)). rewrite Rplus_0_l. apply I2. intros; apply Z; now right. }
  destruct (Q E P) as [Q1 Q2]. clear Q.
  assert (C : 0 < INR (length E)).
  { apply count_pos. unfold E, elementwise. destruct xs as [|x xs], ys as [|y ys]; try congruence; try discriminate.
    pose proof (Hx x (or_introl eq_refl)) as H1. pose proof (Hy y (or_introl eq_refl)) as H2. cbn [map combine concat fst snd].
    destruct y, (model x); cbn in H1, H2; try lia. discriminate. }
  assert (Z : (forall a, In a E -> a = 0) <-> map model xs = ys).
  { unfold E. clear -L Hx Hy. revert ys L Hx Hy. induction xs as [|x xs IH]; intros [|y ys] L Hx Hy; try discriminate.
    - split; [reflexivity|]. intros _ a [].
    - unfold elementwise in *. cbn [map combine concat fst snd].
      assert (R : (forall a, In a (map (fun q => (fst q - snd q) ^ 2) (combine y (model x))) -> a = 0) <-> model x = y).
      { pose proof (Hx x (or_introl eq_refl)) as H1. pose proof (Hy y (or_introl eq_refl)) as H2. rewrite <- H2 in H1. clear H2. revert H1. clear.
        generalize (model x) as u. induction y as [|b y IH]; intros [|v u] H1; try discriminate; [split; [reflexivity|intros _ a []]|].
        cbn [combine map fst snd]. injection H1 as H1. specialize (IH u H1). split.
        - intros Z. assert (B : (b - v) ^ 2 = 0) by (apply Z; now left). assert (b = v) by nra. subst. f_equal. apply IH. intros; apply Z; now right.
        - intros [= -> ->]. intros a [<-|Ha]; [ring|]. now apply IH. }
      destruct (IH ys) as [I1 I2]; [now injection L|intros; apply Hx; now right|intros; apply Hy; now right|]. split.
      + intros Z. f_equal; [apply R|apply I1]; intros a Ha; apply Z, in_or_app; auto.
      + intros [= Z1 Z2] a Ha. apply in_app_or in Ha. destruct Ha as [Ha|Ha]; [now apply R|now apply I2]. }
  split; [apply Rmult_le_pos; [exact Q1|left; now apply Rinv_0_lt_compat]|]. rewrite <- Z, <- Q2. split; intros H.
  - apply (Rmult_eq_reg_r (/ INR (length E))); [|apply Rinv_neq_0_compat; lra]. unfold Rdiv in H. rewrite H. ring.
  - rewrite H. unfold Rdiv. ring.
Qed.
Print Assumptions C151_zero.

Lemma average_range lo hi ys : ys <> [] -> (forall y, In y ys -> lo <= y <= hi) -> lo <= average ys <= hi.
Proof.
  intros N H. pose proof (count_pos ys N) as P. assert (S : lo * INR (length ys) <= fold_right Rplus 0 ys <= hi * INR (length ys)).
  { clear -H. induction ys as [|y ys IH]; [cbn; lra|]. cbn [fold_right length]. rewrite S_INR. pose proof (H y (or_introl eq_refl)).
    destruct IH; [intros; apply H; now right|]. lra. }
  unfold average. split; apply (Rmult_le_reg_r (INR (length ys))); try exact P; unfold Rdiv; rewrite ?Rmult_assoc, ?Rinv_l, ?Rmult_1_r by lra; lra.
Qed.
Lemma cross_entropy_strict p s : 0 < p < 1 -> 0 < s < 1 -> s <> p -> - p * ln p - (1 - p) * ln (1 - p) < - p * ln s - (1 - p) * ln (1 - s).
Proof.
  intros Hp Hs D. assert (G : forall x q, 0 < x -> 0 < q -> x <> q -> q * ln x - q * ln q < x - q).
  { intros x q Hx Hq Hn. assert (Dq : 0 < x / q) by (now apply Rdiv_lt_0_compat).
    replace (q * ln x - q * ln q) with (q * ln (x / q)) by (unfold Rdiv; rewrite ln_mult, ln_Rinv by (auto; now apply Rinv_0_lt_compat); ring).
    assert (Hl : ln (x / q) <> 0).
    { intros E. apply Hn. rewrite <- ln_1 in E. apply ln_inv in E; [|exact Dq|lra]. apply (Rmult_eq_reg_r (/ q)); [|apply Rinv_neq_0_compat; lra]. unfold Rdiv in E. rewrite E. field. lra. }
    pose proof (exp_ineq1 _ Hl) as EI. rewrite exp_ln in EI by exact Dq.
    replace (x - q) with (q * (x / q - 1)) by (field; lra). apply Rmult_lt_compat_l; lra. }
  pose proof (G s p ltac:(lra) ltac:(lra) D). pose proof (G (1 - s) (1 - p) ltac:(lra) ltac:(lra) ltac:(lra)). lra.
Qed.
(** cross entropy: only the logit of the mean of the clipped targets has the least loss *)
Theorem C151_bce : forall model best xs ys c eps, ys <> [] -> length xs = length ys -> 0 < eps < 1/2 ->
  let p := average (map (fun y => Rmin (Rmax y eps) (1 - eps)) ys) in
  always model xs c -> always best xs (ln (p / (1 - p))) -> c <> ln (p / (1 - p)) ->
  bce_logits_loss best xs (column ys) eps < bce_logits_loss model xs (column ys) eps.
Proof.
  intros model best xs ys c eps N L He p A B D.
  assert (P : eps <= p <= 1 - eps).
  { apply average_range; [destruct ys; [congruence|discriminate]|]. intros y Hy. apply in_map_iff in Hy. destruct Hy as (z & <- & _). exact (clip_range eps z He). }
  assert (V : forall m t, always m xs t -> bce_logits_loss m xs (column ys) eps = - p * ln (sigmoid t) - (1 - p) * ln (1 - sigmoid t)).
  { intros m t Am. unfold bce_logits_loss. rewrite (loss_average _ m t xs ys L Am). destruct (log_sigmoid_ln t) as [E1 E2].
    rewrite (map_ext _ (fun y => (ln (1 - sigmoid t) - ln (sigmoid t)) * clip y eps (1 - eps) + - ln (1 - sigmoid t))).
    - rewrite (average_linear _ _ (fun y => clip y eps (1 - eps)) ys N). change (average (map (fun y => clip y eps (1 - eps)) ys)) with p. ring.
    - intros y. unfold bce_logits. rewrite E1, E2. ring. }
  assert (Sp : sigmoid (ln (p / (1 - p))) = p).
  { unfold sigmoid. rewrite exp_Ropp, exp_ln by (apply Rdiv_lt_0_compat; lra). field. lra. }
  rewrite (V model c A), (V best _ B), Sp. apply cross_entropy_strict; [lra|apply sigmoid_range|].
  intros E. apply D. rewrite <- E. unfold sigmoid. pose proof (exp_pos (- c)) as Q. rewrite <- (ln_exp c) at 1. f_equal.
  replace c with (- - c) at 1 by ring. rewrite exp_Ropp. field. lra.
Qed.
Print Assumptions C151_bce.
(** for found (1) and missed (0) injections p is the fraction found, up to eps *)
Theorem C151_detections : forall ys eps, ys <> [] -> 0 < eps < 1/2 -> (forall y, In y ys -> y = 0 \/ y = 1) ->
  average (map (fun y => Rmin (Rmax y eps) (1 - eps)) ys) = eps + (1 - 2 * eps) * average ys
  /\ Rabs (average (map (fun y => Rmin (Rmax y eps) (1 - eps)) ys) - average ys) <= eps.
Proof.
  intros ys eps N He H. assert (E : average (map (fun y => Rmin (Rmax y eps) (1 - eps)) ys) = eps + (1 - 2 * eps) * average ys).
  { rewrite (map_ext_in _ (fun y => (1 - 2 * eps) * y + eps)).
    - rewrite (average_linear _ _ (fun y => y) ys N), map_id. ring.
    - intros y Hy. destruct (H y Hy) as [-> | ->]; [rewrite Rmax_right, Rmin_left by lra|rewrite Rmax_left, Rmin_right by lra]; ring. }
  split; [exact E|]. rewrite E. assert (R : 0 <= average ys <= 1) by (apply average_range; [exact N|]; intros y Hy; destruct (H y Hy); lra).
  apply Rabs_le. split; nra.
Qed.
Print Assumptions C151_detections.

(** training in logarithms: the least squared error is at the geometric mean, never above the mean and below it as soon as
    two targets differ *)
Theorem C151_log : forall xs ys c, ys <> [] -> length xs = length ys -> (forall y, In y ys -> 0 < y) ->
  (forall model other d, always model xs c -> always other xs d -> mse_loss model xs (column (map ln ys)) <= mse_loss other xs (column (map ln ys))) ->
  exp c <= average ys /\ (exp c = average ys -> forall y, In y ys -> y = average ys).
Proof.
  intros xs ys c N L Hp M. assert (Nl : map ln ys <> []) by (destruct ys; [congruence|discriminate]).
  assert (Ll : length xs = length (map ln ys)) by now rewrite map_length.
  assert (Ec : c = average (map ln ys)).
  { specialize (M (fun _ => [c]) (fun _ => [average (map ln ys)]) (average (map ln ys)) (fun _ _ => eq_refl) (fun _ _ => eq_refl)).
    rewrite (C151_mse _ xs _ c Nl Ll (fun _ _ => eq_refl)), (C151_mse _ xs _ (average (map ln ys)) Nl Ll (fun _ _ => eq_refl)) in M. nra. }
  pose proof (count_pos ys N) as P.
  assert (Pm : 0 < average ys).
  { unfold average. apply Rdiv_lt_0_compat; [|exact P]. clear -N Hp. induction ys as [|y ys IH]; [congruence|]. cbn [fold_right].
    pose proof (Hp y (or_introl eq_refl)). destruct ys as [|z ys]; [cbn; lra|]. assert (0 < fold_right Rplus 0 (z :: ys)) by (apply IH; [discriminate|intros; apply Hp; now right]). lra. }
  remember (average ys) as m eqn:Em.
  assert (T : forall y, 0 < y -> 0 <= y / m - 1 - (ln y - ln m) /\ (y / m - 1 - (ln y - ln m) = 0 -> y = m)).
  { intros y Hy. assert (D : 0 < y / m) by now apply Rdiv_lt_0_compat.
    replace (ln y - ln m) with (ln (y / m)) by (unfold Rdiv; rewrite ln_mult, ln_Rinv by (auto; now apply Rinv_0_lt_compat); ring).
    destruct (Req_dec (ln (y / m)) 0) as [Z|Z].
    - assert (Eym : y = m). { rewrite <- ln_1 in Z. apply ln_inv in Z; [|exact D|lra]. apply (Rmult_eq_reg_r (/ m)); [|apply Rinv_neq_0_compat; lra]. unfold Rdiv in Z. rewrite Z. field. lra. }
      rewrite Z. split; [|auto]. rewrite Eym. replace (m / m) with 1 by (field; lra). lra.
    - pose proof (exp_ineq1 _ Z) as EI. rewrite exp_ln in EI by exact D. split; [lra|]. intros; lra. }
  set (g := fun y => y / m - 1 - (ln y - ln m)) in *.
  assert (Av : average (map g ys) = ln m - c).
  { rewrite Ec. unfold average. rewrite !map_length.
    assert (Sg : fold_right Rplus 0 (map g ys) = fold_right Rplus 0 ys / m - INR (length ys) - fold_right Rplus 0 (map ln ys) + INR (length ys) * ln m).
    { unfold g. clear -Pm. induction ys as [|y ys IH]; [cbn; field; lra|]. cbn [map fold_right length]. rewrite IH, S_INR. field. lra. }
    rewrite Sg. replace (fold_right Rplus 0 ys) with (m * INR (length ys)) by (rewrite Em; unfold average; field; lra). field. lra. }
  assert (Q : 0 <= fold_right Rplus 0 (map g ys) /\ (fold_right Rplus 0 (map g ys) = 0 -> forall y, In y ys -> y = m)).
  { clear -Hp T. induction ys as [|y ys IH]; [split; [cbn; lra|intros _ y []]|]. cbn [map fold_right].
    destruct IH as [I1 I2]; [intros; apply Hp; now right|]. destruct (T y (Hp y (or_introl eq_refl))) as [T1 T2].
    split; [unfold g in *; lra|]. intros Z z [<-|Hz]; [apply T2; unfold g in *; lra|]. apply I2; [unfold g in *; lra|exact Hz]. }
  unfold average in Av. rewrite map_length in Av. destruct Q as [Q1 Q2].
  assert (Lc : c <= ln m).
  { assert (0 <= fold_right Rplus 0 (map g ys) / INR (length ys)) by (apply Rmult_le_pos; [exact Q1|left; now apply Rinv_0_lt_compat]). lra. }
  split.
  - rewrite <- (exp_ln m Pm). destruct Lc as [Lc|Lc]; [left; now apply exp_increasing|right; now rewrite Lc].
  - intros E. apply Q2. assert (Ecm : c = ln m) by (rewrite <- E; now rewrite ln_exp). rewrite Ecm in Av.
    apply (Rmult_eq_reg_r (/ INR (length ys))); [|apply Rinv_neq_0_compat; lra]. unfold Rdiv in Av. rewrite Av. ring.
Qed.
Print Assumptions C151_log.

Example C151_mse_nonvacuous : mse_loss (fun _ => [5]) [[0]; [0]] (column [1; 3]) = 10.
Proof.
  rewrite (C151_mse _ [[0]; [0]] [1; 3] 5) by (discriminate || reflexivity || intros x _; reflexivity). unfold average. cbn. field.
Qed.
Example C151_detections_nonvacuous : average (map (fun y => Rmin (Rmax y (1/10)) (1 - 1/10)) [0; 1; 1; 1]) = 7/10.
Proof.
  rewrite (proj1 (C151_detections [0; 1; 1; 1] (1/10) ltac:(discriminate) ltac:(lra) ltac:(intros y H; cbn in H; intuition))).
  unfold average. cbn. field.
Qed.
(** the logit of 7/10 has a smaller loss than the logit of 1/2 *)
Example C151_bce_nonvacuous : bce_logits_loss (fun _ => [ln (7/10 / (1 - 7/10))]) [[0]; [0]; [0]; [0]] (column [0; 1; 1; 1]) (1/10)
  < bce_logits_loss (fun _ => [0]) [[0]; [0]; [0]; [0]] (column [0; 1; 1; 1]) (1/10).
Proof.
  rewrite <- C151_detections_nonvacuous. apply (C151_bce _ _ _ _ 0); try discriminate; try reflexivity; try lra; try (intros x _; reflexivity).
  rewrite C151_detections_nonvacuous. rewrite <- ln_1. intros E. apply ln_inv in E; lra.
Qed.
Example C151_zero_nonvacuous : mse_loss (fun x => x) [[1; 2]; [3; 4]] [[1; 2]; [3; 4]] = 0.
Proof.
  apply (C151_zero (fun x => x) [[1; 2]; [3; 4]] [[1; 2]; [3; 4]] 2); try discriminate; try reflexivity; try lia;
    intros x H; cbn in H; destruct H as [<-|[<-|[]]]; reflexivity.
Qed.
(** refuted: a network trained in logarithms (train_in_log) on the volumes 1 and 4 of two equal rows learns 2, not 5/2 *)
Theorem C151_mean_refuted : exists xs ys c, length xs = length ys
  /\ (forall model other d, always model xs c -> always other xs d -> mse_loss model xs (column (map ln ys)) <= mse_loss other xs (column (map ln ys)))
  /\ exp c = 2 /\ average ys = 5 / 2.
Proof.
  exists [[0]; [0]], [1; 4], (ln 2). split; [reflexivity|]. split; [|split; [apply exp_ln; lra|unfold average; cbn; field]].
  assert (E : average (map ln [1; 4]) = ln 2).
  { unfold average. cbn. rewrite ln_1. replace 4 with (2 * 2) by ring. rewrite ln_mult by lra. field. }
  intros model other d A B.
  rewrite (C151_mse model [[0]; [0]] (map ln [1; 4]) (ln 2)), (C151_mse other [[0]; [0]] (map ln [1; 4]) d) by (discriminate || reflexivity || assumption).
  rewrite E. pose proof (pow2_ge_0 (d - ln 2)). nra.
Qed.
Print Assumptions C151_mean_refuted.
