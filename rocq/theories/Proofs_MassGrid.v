From Coq Require Import Reals Lra Lia List Bool.
From Coquelicot Require Import Coquelicot.
From Verif Require Import Model_X Spec_X Proofs_X Model_Powerlaw Spec_Density Proofs_Transform Proofs_Powerlaw.
From Verif Require Import Model_Cosmology Proofs_Cosmology.
From Verif Require Import Proofs_PowerlawJvp Model_Gauss Proofs_Gauss Model_Constraints Model_Mass Proofs_Mass.
Import ListNotations.
Open Scope R_scope.

(** ** grids *)
Lemma linspace_inc_from a d n i : 0 < d -> inc1 (map (fun i => a + INR i * d) (seq i n)).
Proof.
  intros Hd. revert i. induction n as [|n IH]; intros i; [exact I|].
  destruct n as [|n]; [exact I|]. specialize (IH (S i)). cbn [seq map] in *.
  cbn [inc1]. split; [|exact IH]. rewrite (S_INR i). nra.
Qed.
Lemma linspace_step a b n : a < b -> (2 <= n)%nat -> 0 < (b - a) / INR (n - 1).
Proof. intros H Hn. apply Rdiv_lt_0_compat; [lra|]. apply lt_0_INR. lia. Qed.
Lemma linspace_inc a b n : a < b -> (2 <= n)%nat -> inc1 (linspace a b n).
Proof. intros H Hn. apply linspace_inc_from. now apply linspace_step. Qed.
Lemma linspace_length a b n : length (linspace a b n) = n.
Proof. unfold linspace. now rewrite map_length, seq_length. Qed.
Lemma linspace_hd a b n : (1 <= n)%nat -> hd 0 (linspace a b n) = a.
Proof. intros Hn. destruct n; [lia|]. unfold linspace. cbn [seq map hd]. simpl INR. ring. Qed.
Lemma linspace_last a b n : (2 <= n)%nat -> last (linspace a b n) 0 = b.
Proof.
  intros Hn. unfold linspace. destruct n as [|n]; [lia|]. rewrite seq_S, map_app. cbn [map].
  rewrite last_last. replace (S n - 1)%nat with n by lia. simpl (0 + n)%nat. field.
  apply not_0_INR. lia.
Qed.
Lemma linspace_In_last a b n : (2 <= n)%nat -> In b (linspace a b n).
Proof.
  intros Hn. unfold linspace. apply in_map_iff. exists (n - 1)%nat. split.
  - field. apply not_0_INR. lia.
  - apply in_seq. lia.
Qed.
Lemma linspace_range a b n x : a < b -> (2 <= n)%nat -> In x (linspace a b n) -> a <= x <= b.
Proof.
  intros H Hn Hx. unfold linspace in Hx. apply in_map_iff in Hx as (i & <- & Hi). apply in_seq in Hi.
  pose proof (linspace_step a b n H Hn) as S. pose proof (pos_INR i).
  assert (INR i <= INR (n - 1)) by (apply le_INR; lia).
  assert (E : INR (n - 1) * ((b - a) / INR (n - 1)) = b - a) by (field; apply not_0_INR; lia). nra.
Qed.
Lemma linspace_interior a b n : a < b -> (3 <= n)%nat -> exists x, In x (linspace a b n) /\ a < x < b.
Proof.
  intros H Hn. exists (a + INR 1 * ((b - a) / INR (n - 1))). split.
  - unfold linspace. apply in_map_iff. exists 1%nat. split; auto. apply in_seq. lia.
  - pose proof (linspace_step a b n H ltac:(lia)).
    assert (E : INR (n - 1) * ((b - a) / INR (n - 1)) = b - a) by (field; apply not_0_INR; lia).
    assert (2 <= INR (n - 1)) by (replace 2 with (INR 2) by reflexivity; apply le_INR; lia).
    simpl INR in *. nra.
Qed.

Lemma inc1_tail x l : inc1 (x :: l) -> inc1 l.
Proof. destruct l; [intros; exact I|intros [_ H]; exact H]. Qed.
Lemma inc1_head x l y : inc1 (x :: l) -> In y l -> x < y.
Proof.
  revert x. induction l as [|z l IH]; intros x H Hy; [easy|]. destruct H as [H1 H2].
  destruct Hy as [->|Hy]; auto. specialize (IH z H2 Hy). lra.
Qed.

(** ** trapezoid rule *)
Lemma trapezoid_scale k : forall xs (f : R -> R), trapezoid xs (map (fun x => k * f x) xs) = k * trapezoid xs (map f xs).
Proof.
  induction xs as [|x xs IH]; intros f; [simpl; ring|]. destruct xs as [|y xs]; [simpl; ring|].
  specialize (IH f). cbn [map] in *.
  change ((y - x) * (k * f y + k * f x) / 2 + trapezoid (y :: xs) (k * f y :: map (fun x => k * f x) xs)
          = k * ((y - x) * (f y + f x) / 2 + trapezoid (y :: xs) (f y :: map f xs))).
  rewrite IH. field.
Qed.
Lemma trapezoid_ext xs (f g : R -> R) : (forall x, In x xs -> f x = g x) -> trapezoid xs (map f xs) = trapezoid xs (map g xs).
Proof. intros H. f_equal. now apply map_ext_in. Qed.
Lemma trapezoid_nonneg : forall xs (f : R -> R), inc1 xs -> (forall x, In x xs -> 0 <= f x) -> 0 <= trapezoid xs (map f xs).
Proof.
  induction xs as [|x xs IH]; intros f Hi Hf; [simpl; lra|]. destruct xs as [|y xs]; [simpl; lra|].
  destruct Hi as [Hxy Hi]. specialize (IH f Hi ltac:(intros; apply Hf; now right)).
  change (0 <= (y - x) * (f y + f x) / 2 + trapezoid (y :: xs) (map f (y :: xs))).
  pose proof (Hf x ltac:(now left)). pose proof (Hf y ltac:(right; now left)).
  assert (0 <= (y - x) * (f y + f x)) by (apply Rmult_le_pos; lra). lra.
Qed.
Lemma trapezoid_pos : forall xs (f : R -> R) z, inc1 xs -> (2 <= length xs)%nat -> (forall x, In x xs -> 0 <= f x) ->
  In z xs -> 0 < f z -> 0 < trapezoid xs (map f xs).
Proof.
  induction xs as [|x xs IH]; intros f z Hi Hl Hf Hz Hp; [easy|].
  destruct xs as [|y xs]; [simpl in Hl; lia|]. pose proof Hi as [Hxy Hi'].
  pose proof (Hf x ltac:(now left)). pose proof (Hf y ltac:(right; now left)).
  pose proof (trapezoid_nonneg (y :: xs) f Hi' ltac:(intros; apply Hf; now right)) as N.
  change (0 < (y - x) * (f y + f x) / 2 + trapezoid (y :: xs) (map f (y :: xs))).
  destruct Hz as [->|Hz].
  - assert (0 < (y - z) * (f y + f z)) by (apply Rmult_lt_0_compat; lra). lra.
  - destruct Hz as [->|Hz].
    + assert (0 < (z - x) * (f z + f x)) by (apply Rmult_lt_0_compat; lra). lra.
    + assert (0 <= (y - x) * (f y + f x)) by (apply Rmult_le_pos; lra).
      destruct xs as [|w xs]; [easy|].
      assert (0 < trapezoid (y :: w :: xs) (map f (y :: w :: xs))).
      { apply (IH f z); auto; [simpl; lia| |now right]. intros; apply Hf; now right. }
      lra.
Qed.

(** ** interpolation at a knot *)
Lemma interp_cell_knot : forall xs (f : R -> R) x, inc1 xs -> In x xs ->
  interp_cell x (map (fun x => (x, f x)) xs) = f x.
Proof.
  induction xs as [|a xs IH]; intros f x Hi Hx; [easy|].
  destruct xs as [|b xs]; [destruct Hx as [->|[]]; reflexivity|].
  pose proof Hi as [Hab Hi'].
  assert (here_a : f a + (a - a) / (b - a) * (f b - f a) = f a) by (field; lra).
  assert (here_b : f a + (b - a) / (b - a) * (f b - f a) = f b) by (field; lra).
  destruct xs as [|c xs].
  - cbn. destruct Hx as [->|[->|[]]]; auto.
  - change (interp_cell x (map (fun x => (x, f x)) (a :: b :: c :: xs)))
      with (if Rlt_dec x b then f a + (x - a) / (b - a) * (f b - f a)
            else interp_cell x (map (fun x => (x, f x)) (b :: c :: xs))).
    destruct Hx as [->|Hx].
    + destruct (Rlt_dec x b); [auto|lra].
    + destruct (Rlt_dec x b) as [L|L].
      * exfalso. destruct Hx as [->|Hx]; [lra|]. pose proof (inc1_head _ _ _ Hi' Hx). lra.
      * now apply IH.
Qed.

Lemma combine_map_self (xs : list R) (f : R -> R) : combine xs (map f xs) = map (fun x => (x, f x)) xs.
Proof. induction xs; simpl; congruence. Qed.

Lemma inc1_last_ge : forall xs x, inc1 xs -> In x xs -> x <= last xs 0.
Proof.
  induction xs as [|a xs IH]; intros x Hi Hx; [easy|]. destruct xs as [|b xs].
  - destruct Hx as [->|[]]. simpl. lra.
  - change (last (a :: b :: xs) 0) with (last (b :: xs) 0). pose proof Hi as [Hab Hi'].
    destruct Hx as [->|Hx]; [|now apply IH]. specialize (IH b Hi' ltac:(now left)). lra.
Qed.

Lemma interp_lr_knot xs f x l r : inc1 xs -> In x xs -> interp_lr x xs (map f xs) l r = f x.
Proof.
  intros Hi Hx. unfold interp_lr, interp. rewrite combine_map_self.
  destruct xs as [|a xs]; [easy|].
  assert (~ x < a).
  { destruct Hx as [->|Hx]; [lra|]. pose proof (inc1_head _ _ _ Hi Hx). lra. }
  pose proof (inc1_last_ge _ _ Hi Hx).
  cbn [hd]. destruct (Rlt_dec x a); [lra|]. destruct (Rlt_dec (last (a :: xs) 0) x); [lra|].
  now apply interp_cell_knot.
Qed.

(** ** shared pieces *)
Lemma fin_or_ninf_add a b : fin_or_ninf a -> fin_or_ninf b -> fin_or_ninf (xadd a b).
Proof. destruct a, b; simpl; tauto. Qed.
Lemma wexp_xadd a b : fin_or_ninf a -> fin_or_ninf b -> wexp (xadd a b) = wexp a * wexp b.
Proof. destruct a, b; simpl; intros; try tauto; try ring. apply exp_plus. Qed.
Lemma wexp_xsub_ln a Z : 0 < Z -> wexp (xsub a (xln (Fin Z))) = wexp a / Z.
Proof.
  intros HZ. rewrite xln_fin by auto. destruct a; simpl; try (unfold Rdiv; ring).
  rewrite exp_plus, exp_Ropp, exp_ln by auto. reflexivity.
Qed.
Lemma fin_or_ninf_sub_ln a Z : 0 < Z -> fin_or_ninf a -> fin_or_ninf (xsub a (xln (Fin Z))).
Proof. intros HZ. rewrite xln_fin by auto. destruct a; simpl; auto. Qed.

Lemma wexp_combine a b Z Zq : fin_or_ninf a -> fin_or_ninf b -> 0 < Z -> 0 < Zq ->
  wexp (xadd (xsub a (xln (Fin Z))) (xsub b (xln (Fin Zq)))) = wexp a / Z * (wexp b / Zq).
Proof.
  intros Ha Hb HZ HZq. rewrite wexp_xadd by now apply fin_or_ninf_sub_ln.
  now rewrite !wexp_xsub_ln.
Qed.

Lemma taper_fin x : fin_or_ninf (log_planck_taper_window x).
Proof.
  unfold log_planck_taper_window. destruct (Rle_dec x 0); [exact I|]. destruct (Rlt_dec x 1); [|exact I].
  rewrite softplus_fin. exact I.
Qed.
Lemma taper_pos x : 0 < x -> 0 < wexp (log_planck_taper_window x).
Proof.
  intros Hx. destruct (Rlt_dec x 1).
  - apply (window_range x). lra.
  - rewrite window_high by lra. simpl. apply exp_pos.
Qed.

Lemma q_grid_facts : inc1 q_grid /\ (2 <= length q_grid)%nat /\ In 1 q_grid /\ (forall q, In q q_grid -> 0 < q <= 1).
Proof.
  unfold q_grid. split; [|split; [|split]].
  - apply linspace_inc; [lra|lia].
  - rewrite linspace_length. lia.
  - apply linspace_In_last. lia.
  - intros q H. apply linspace_range in H; [lra|lra|lia].
Qed.

Lemma validated_fin v m lp : fin_or_ninf lp -> fin_or_ninf (validated v m lp).
Proof. unfold validated. destruct v, m; simpl; auto. Qed.
Lemma sandwich_q1 mmin mmax m1 : 0 < mmin <= m1 -> m1 <= mmax ->
  mass_ratio_mass_sandwich (Fin mmin) (Fin mmax) (Fin m1) (Fin 1) = true.
Proof.
  intros. apply pmr_sandwich; [lra|lra|]. repeat split; try lra. apply Rle_div_l; lra.
Qed.
Lemma scaled_pos a b d : 0 < d -> a < b -> 0 < (b - a) / d.
Proof. intros. apply Rdiv_lt_0_compat; lra. Qed.

Lemma convex_pos l a b : 0 <= l <= 1 -> 0 < a -> 0 < b -> 0 < (1 - l) * a + l * b.
Proof.
  intros Hl Ha Hb. destruct (Rlt_dec 0 l).
  - assert (0 < l * b) by now apply Rmult_lt_0_compat.
    pose proof (Rmult_le_pos (1 - l) a ltac:(lra) ltac:(lra)). lra.
  - replace l with 0 by lra. lra.
Qed.

(** ** SmoothedTwoComponentPrimaryMassRatio *)
Section Stc.
Variables alpha beta delta lambda loc mmax mmin scale : R.
Variable validate : bool.
Hypothesis Hm : 0 < mmin < mmax.
Hypothesis Hd : 0 < delta.
Hypothesis Hl : 0 <= lambda <= 1.
Hypothesis Hs : 0 < scale.

Notation m1u := (stc_m1_unnorm alpha delta lambda loc mmax mmin scale).
Notation qu := (stc_q_unnorm beta delta mmax mmin validate).
Notation Zq := (stc_Zq beta delta mmax mmin validate).

Definition stc_mix (m : R) : R :=
  (1 - lambda) * (Rpower m (- alpha) / (antider (- alpha) mmax - antider (- alpha) mmin)) + lambda * norm_pdf m loc scale.

Lemma stc_mix_pos m : 0 < m -> 0 < stc_mix m.
Proof.
  intros Hm0. unfold stc_mix. pose proof (antider_incr (- alpha) mmin mmax Hm).
  assert (0 < Rpower m (- alpha) / (antider (- alpha) mmax - antider (- alpha) mmin)).
  { apply Rdiv_lt_0_compat; [apply Rpower_pos|lra]. }
  assert (0 < norm_pdf m loc scale) by (apply Rdiv_lt_0_compat; [apply phi_pos|lra]). now apply convex_pos.
Qed.

Lemma stc_m1_value m : 0 < m ->
  m1u m = xadd (Fin (ln (stc_mix m))) (log_planck_taper_window ((m - mmin) / delta)).
Proof.
  intros Hm0. unfold stc_m1_unnorm. destruct (Rle_dec delta 0); [lra|].
  rewrite log_norm_fin, xpower_pos by auto. rewrite xmul_fin. cbn [xopp xexp]. rewrite xmul_fin. cbn [xadd].
  pose proof (antider_incr (- alpha) mmin mmax Hm).
  rewrite exp_Ropp, exp_ln by lra. rewrite Rmult_assoc. fold (Rdiv (Rpower m (- alpha)) (antider (- alpha) mmax - antider (- alpha) mmin)).
  fold (stc_mix m). rewrite xln_fin by now apply stc_mix_pos. reflexivity.
Qed.

Lemma stc_m1_fin m : 0 < m -> fin_or_ninf (m1u m).
Proof. intros. rewrite stc_m1_value by auto. apply fin_or_ninf_add; [exact I|apply taper_fin]. Qed.

Lemma stc_m1_wexp m : 0 < m -> wexp (m1u m) = stc_mix m * wexp (log_planck_taper_window ((m - mmin) / delta)).
Proof.
  intros. rewrite stc_m1_value, wexp_add by auto. rewrite exp_ln by now apply stc_mix_pos. reflexivity.
Qed.

Lemma stc_q_fin m1 q : 0 < q -> fin_or_ninf (qu m1 q).
Proof.
  intros Hq. unfold stc_q_unnorm. apply validated_fin. destruct (Rle_dec delta 0); [exact I|].
  rewrite xln_fin, xmul_fin by auto. apply fin_or_ninf_add; [exact I|apply taper_fin].
Qed.
Lemma stc_q1_pos m1 : mmin < m1 -> m1 <= mmax -> 0 < wexp (qu m1 1).
Proof.
  intros H1 H2. unfold stc_q_unnorm. rewrite sandwich_q1 by lra.
  replace (validated validate true) with (fun x : X => x) by (destruct validate; reflexivity).
  destruct (Rle_dec delta 0); [lra|]. rewrite xln_fin, xmul_fin by lra.
  rewrite wexp_add. apply Rmult_lt_0_compat; [apply exp_pos|]. apply taper_pos.
  apply scaled_pos; lra.
Qed.
Lemma stc_Zq_pos m1 : mmin < m1 -> m1 <= mmax -> 0 < Zq m1.
Proof.
  intros H1 H2. destruct q_grid_facts as (A & B & C & D). unfold stc_Zq.
  apply (trapezoid_pos q_grid (fun q => wexp (qu m1 q)) 1); auto.
  - intros; apply wexp_nonneg.
  - now apply stc_q1_pos.
Qed.

(** the closed-form part is the integral over the unsmoothed range *)
Lemma stc_rest_integral : mmin + delta < mmax ->
  exists A : R, is_RInt (fun m => wexp (m1u m)) (mmin + delta) mmax A /\ 0 < A
    /\ stc_analytical alpha delta lambda loc mmax mmin scale = Fin A.
Proof.
  intros Hmd. pose proof (antider_incr (- alpha) mmin mmax Hm) as HG.
  pose proof (antider_incr (- alpha) (mmin + delta) mmax ltac:(lra)) as HG2.
  exists ((1 - lambda) * ((antider (- alpha) mmax - antider (- alpha) (mmin + delta)) / (antider (- alpha) mmax - antider (- alpha) mmin))
     + lambda * (ndtr ((mmax - loc) / scale) - ndtr ((mmin + delta - loc) / scale))).
  split; [|split].
  - apply is_RInt_ext with
      (fun m => plus ((1 - lambda) * wexp (powerlaw_log_prob m (- alpha) mmin mmax)) (lambda * norm_pdf m loc scale)).
    { rewrite Rmin_left, Rmax_right by lra. intros m Hmm. rewrite stc_m1_wexp by lra.
      rewrite window_high by (apply Rle_div_r; lra). cbn [wexp]. rewrite exp_0, Rmult_1_r.
      rewrite density_value by lra. reflexivity. }
    apply @is_RInt_plus.
    + eapply is_RInt_scal_R; [apply powerlaw_integral; lra|reflexivity].
    + eapply is_RInt_scal_R; [now apply norm_pdf_RInt|reflexivity].
  - assert (0 < (antider (- alpha) mmax - antider (- alpha) (mmin + delta)) / (antider (- alpha) mmax - antider (- alpha) mmin))
      by (apply Rdiv_lt_0_compat; lra).
    pose proof (ndtr_incr _ _ (std_order loc scale (mmin + delta) mmax Hs Hmd)). apply convex_pos; auto; lra.
  - unfold stc_analytical. rewrite !log_norm_fin by lra. rewrite xsub_fin. cbn [xexp]. rewrite xmul_fin. cbn [xadd].
    unfold Rminus at 2. rewrite exp_plus, exp_Ropp, !exp_ln by lra. reflexivity.
Qed.

Theorem stc_m1_normalised : mmin + delta < mmax ->
  let lp m1 := xsub (m1u m1) (stc_logZ alpha delta lambda loc mmax mmin scale) in
  exists A : R, is_RInt (fun m => wexp (lp m)) (mmin + delta) mmax A
    /\ trapezoid (stc_edge_grid delta mmin) (map (fun m => wexp (lp m)) (stc_edge_grid delta mmin)) + A = 1.
Proof.
  intros Hmd lp. destruct (stc_rest_integral Hmd) as (A & HA & PA & EA).
  set (N := stc_numerical alpha delta lambda loc mmax mmin scale).
  assert (HN : 0 <= N).
  { unfold N, stc_numerical. apply (trapezoid_nonneg (stc_edge_grid delta mmin) (fun m => wexp (m1u m))).
    - apply linspace_inc; [lra|lia].
    - intros; apply wexp_nonneg. }
  assert (EZ : stc_logZ alpha delta lambda loc mmax mmin scale = xln (Fin (N + A))).
  { unfold stc_logZ. fold N. rewrite EA. reflexivity. }
  assert (V : forall m, wexp (lp m) = / (N + A) * wexp (m1u m)).
  { intros m. unfold lp. rewrite EZ, wexp_xsub_ln by lra. unfold Rdiv. ring. }
  exists (A / (N + A)). split.
  - apply is_RInt_ext with (fun m => / (N + A) * wexp (m1u m)).
    { intros m _. symmetry. apply V. }
    eapply is_RInt_scal_R; [exact HA|]. unfold Rdiv. ring.
  - rewrite (trapezoid_ext _ _ (fun m => / (N + A) * wexp (m1u m))).
    2:{ intros m _. apply V. }
    rewrite trapezoid_scale. change (/ (N + A) * N + A / (N + A) = 1). field. lra.
Qed.

(** at the nodes of the primary-mass grid the mass-ratio factor sums to one *)
Theorem stc_q_normalised m1 : mmin + delta < mmax -> In m1 (stc_m1s mmax mmin) -> mmin < m1 ->
  trapezoid q_grid (map (fun q => wexp (stc_log_prob alpha beta delta lambda loc mmax mmin scale validate m1 q)) q_grid)
  = wexp (xsub (m1u m1) (stc_logZ alpha delta lambda loc mmax mmin scale)).
Proof.
  intros Hmd Hin Hlow. destruct (stc_rest_integral Hmd) as (A & _ & PA & EA).
  set (N := stc_numerical alpha delta lambda loc mmax mmin scale).
  assert (HN : 0 <= N).
  { unfold N, stc_numerical. apply (trapezoid_nonneg (stc_edge_grid delta mmin) (fun m => wexp (m1u m))).
    - apply linspace_inc; [lra|lia].
    - intros; apply wexp_nonneg. }
  assert (EZ : stc_logZ alpha delta lambda loc mmax mmin scale = xln (Fin (N + A))).
  { unfold stc_logZ. fold N. rewrite EA. reflexivity. }
  assert (Hr : mmin <= m1 <= mmax) by (unfold stc_m1s in Hin; apply linspace_range in Hin; [lra|lra|lia]).
  assert (HZ : 0 < Zq m1) by (apply stc_Zq_pos; lra).
  assert (Hi : interp_lr m1 (stc_m1s mmax mmin) (map Zq (stc_m1s mmax mmin)) 1 1 = Zq m1).
  { apply interp_lr_knot; auto. apply linspace_inc; [lra|lia]. }
  rewrite (trapezoid_ext _ _ (fun q => wexp (m1u m1) / (N + A) / Zq m1 * wexp (qu m1 q))).
  - rewrite trapezoid_scale. change (trapezoid q_grid (map (fun q => wexp (qu m1 q)) q_grid)) with (Zq m1).
    rewrite EZ, wexp_xsub_ln by lra. field. lra.
  - intros q Hq. destruct q_grid_facts as (_ & _ & _ & D). specialize (D q Hq).
    assert (Fq : fin_or_ninf (qu m1 q)) by (apply stc_q_fin; lra).
    unfold stc_log_prob. rewrite Hi, EZ. destruct (Rle_dec (Zq m1) 0); [lra|].
    destruct (mass_ratio_mass_sandwich (Fin mmin) (Fin mmax) (Fin m1) (Fin q)) eqn:EM.
    + replace (validated validate true) with (fun x : X => x) by (destruct validate; reflexivity).
      rewrite wexp_combine; [|apply stc_m1_fin; lra|exact Fq|lra|auto]. field. lra.
    + destruct validate eqn:EV.
      * unfold validated at 1. cbn [wexp]. unfold stc_q_unnorm. rewrite EM. unfold validated. cbn [wexp]. ring.
      * unfold validated at 1.
        rewrite wexp_combine; [|apply stc_m1_fin; lra|exact Fq|lra|auto]. field. lra.
Qed.

(** smoothing wider than the mass range: the normaliser is not a number *)
Theorem stc_wide_nan m1 q : mmax < mmin + delta ->
  (validate = true -> mass_ratio_mass_sandwich (Fin mmin) (Fin mmax) (Fin m1) (Fin q) = true) ->
  stc_log_prob alpha beta delta lambda loc mmax mmin scale validate m1 q = NaN.
Proof.
  intros Hw Hv.
  assert (EZ : stc_logZ alpha delta lambda loc mmax mmin scale = NaN).
  { unfold stc_logZ. replace (stc_analytical alpha delta lambda loc mmax mmin scale) with NaN; [reflexivity|].
    unfold stc_analytical. replace (log_norm (- alpha) (mmin + delta) mmax) with NaN; [reflexivity|].
    unfold log_norm. destruct (Req_EM_T (- alpha) (-1)).
    - rewrite !xln_fin by lra. rewrite xsub_fin.
      pose proof (ln_increasing mmax (mmin + delta) ltac:(lra) ltac:(lra)).
      unfold xln. destruct (Rlt_dec 0 (ln mmax - ln (mmin + delta))); [lra|].
      destruct (Req_EM_T (ln mmax - ln (mmin + delta)) 0); [lra|reflexivity].
    - rewrite !xpower_pos, xsub_fin, xdiv_fin' by lra.
      pose proof (Rpower_diff_pos (1 + - alpha) mmax (mmin + delta) ltac:(lra) ltac:(lra)) as P.
      assert (E : (Rpower mmax (1 + - alpha) - Rpower (mmin + delta) (1 + - alpha)) / (1 + - alpha)
                  = - ((Rpower (mmin + delta) (1 + - alpha) - Rpower mmax (1 + - alpha)) / (1 + - alpha))) by (field; lra).
      rewrite E. set (z := (Rpower (mmin + delta) (1 + - alpha) - Rpower mmax (1 + - alpha)) / (1 + - alpha)) in *.
      unfold xln. destruct (Rlt_dec 0 (- z)); [lra|]. destruct (Req_EM_T (- z) 0); [lra|reflexivity]. }
  unfold stc_log_prob, validated. rewrite EZ. unfold xsub at 1 3. cbn [xopp].
  replace (xadd (m1u m1) NaN) with NaN by (now destruct (m1u m1)). cbn [xadd].
  destruct validate; [rewrite Hv by auto|]; reflexivity.
Qed.
End Stc.

(** ** BrokenPowerlawTwoPeak *)
Section B2p.
Variables a1 a2 beta loc1 loc2 scale1 scale2 d1 d2 l0 l1 m1min m2min mmax mb : R.
Variable validate : bool.
Hypothesis H1 : 0 < m1min < mb.
Hypothesis H2 : mb < mmax.
Hypothesis H3 : 0 < m2min < mmax.
Hypothesis Hd1 : 0 < d1.
Hypothesis Hd2 : 0 < d2.
Hypothesis Hl0 : 0 <= l0.
Hypothesis Hl1 : 0 <= l1.
Hypothesis Hl : l0 + l1 <= 1.
Hypothesis Hs1 : 0 < scale1.
Hypothesis Hs2 : 0 < scale2.

Notation m1u := (b2p_m1_unnorm a1 a2 loc1 loc2 scale1 scale2 d1 l0 l1 m1min mmax mb).
Notation qu := (b2p_q_unnorm beta d2 m2min mmax validate).
Notation Zq := (b2p_Zq beta d2 m2min mmax validate).
Notation lp := (b2p_log_prob a1 a2 beta loc1 loc2 scale1 scale2 d1 d2 l0 l1 m1min m2min mmax mb validate).
Notation logZ := (b2p_logZ a1 a2 loc1 loc2 scale1 scale2 d1 l0 l1 m1min mmax mb).
Notation grid := (b2p_m1_grid m1min mmax).

Definition b2p_mix (m : R) : R :=
  l0 * wexp (broken_powerlaw_log_prob m a1 a2 m1min mmax mb) + l1 * wexp (truncnorm_logpdf m loc1 scale1 m1min mmax)
  + (1 - (l0 + l1)) * wexp (truncnorm_logpdf m loc2 scale2 m1min mmax).

Lemma b2p_mix_pos m : m1min <= m <= mmax -> 0 < b2p_mix m.
Proof.
  intros Hm. unfold b2p_mix. rewrite broken_fin by lra. rewrite !truncnorm_fin by lra. cbn [wexp].
  match goal with |- 0 < l0 * exp ?a + l1 * exp ?b + _ * exp ?c =>
    pose proof (exp_pos a) as P1; pose proof (exp_pos b) as P2; pose proof (exp_pos c) as P3;
    set (x := exp a) in *; set (y := exp b) in *; set (z := exp c) in * end.
  destruct (Rlt_dec 0 l0); [|destruct (Rlt_dec 0 l1)].
  - assert (0 < l0 * x) by now apply Rmult_lt_0_compat.
    pose proof (Rmult_le_pos l1 y Hl1 ltac:(lra)). pose proof (Rmult_le_pos (1 - (l0 + l1)) z ltac:(lra) ltac:(lra)). lra.
  - assert (0 < l1 * y) by now apply Rmult_lt_0_compat.
    pose proof (Rmult_le_pos l0 x Hl0 ltac:(lra)). pose proof (Rmult_le_pos (1 - (l0 + l1)) z ltac:(lra) ltac:(lra)). lra.
  - replace l0 with 0 by lra. replace l1 with 0 by lra. lra.
Qed.

Lemma b2p_m1_value m : m1min <= m <= mmax ->
  m1u m = xadd (log_planck_taper_window ((m - m1min) / d1)) (Fin (ln (b2p_mix m))).
Proof.
  intros Hm. unfold b2p_m1_unnorm. destruct (Rle_dec d1 0); [lra|]. destruct (Rlt_dec m m1min); [lra|].
  assert (F : forall a : X, fin_or_ninf a -> xexp a = Fin (wexp a)) by (intros; now apply xexp_wexp).
  rewrite !F.
  2:{ rewrite truncnorm_fin by lra. exact I. }
  2:{ rewrite truncnorm_fin by lra. exact I. }
  2:{ rewrite broken_fin by lra. exact I. }
  rewrite !xmul_fin. cbn [xadd]. fold (b2p_mix m). rewrite xln_fin by now apply b2p_mix_pos. reflexivity.
Qed.

Lemma b2p_m1_fin m : m1min <= m <= mmax -> fin_or_ninf (m1u m).
Proof. intros. rewrite b2p_m1_value by auto. apply fin_or_ninf_add; [apply taper_fin|exact I]. Qed.
Lemma b2p_m1_pos m : m1min < m <= mmax -> 0 < wexp (m1u m).
Proof.
  intros. rewrite b2p_m1_value by lra. rewrite wexp_xadd; [|apply taper_fin|exact I].
  apply Rmult_lt_0_compat; [|apply exp_pos]. apply taper_pos, scaled_pos; lra.
Qed.
Lemma b2p_m1_edge m : m <= m1min -> m1u m = NInf.
Proof.
  intros [Hm| ->].
  - unfold b2p_m1_unnorm. destruct (Rle_dec d1 0); auto. destruct (Rlt_dec m m1min); [auto|lra].
  - rewrite b2p_m1_value by lra. rewrite window_low; [reflexivity|].
    replace ((m1min - m1min) / d1) with 0 by (field; lra). lra.
Qed.

Definition b2p_Z : R := trapezoid grid (map (fun m => wexp (m1u m)) grid).
Lemma b2p_Z_pos : 0 < b2p_Z.
Proof.
  unfold b2p_Z. destruct (linspace_interior m1min mmax 1000 ltac:(lra) ltac:(lia)) as (x & Hin & Hx).
  apply (trapezoid_pos _ (fun m => wexp (m1u m)) x); auto.
  - apply linspace_inc; [lra|lia].
  - unfold b2p_m1_grid. rewrite linspace_length. lia.
  - intros; apply wexp_nonneg.
  - apply b2p_m1_pos. lra.
Qed.
Lemma b2p_logZ_eq : logZ = xln (Fin b2p_Z).
Proof. reflexivity. Qed.

Theorem b2p_m1_normalised : trapezoid grid (map (fun m => wexp (xsub (m1u m) logZ)) grid) = 1.
Proof.
  pose proof b2p_Z_pos as P. rewrite b2p_logZ_eq.
  rewrite (trapezoid_ext _ _ (fun m => / b2p_Z * wexp (m1u m))).
  - rewrite trapezoid_scale. fold b2p_Z. field. lra.
  - intros m _. rewrite wexp_xsub_ln by auto. unfold Rdiv. ring.
Qed.

Lemma b2p_q_fin m1 q : 0 < q -> fin_or_ninf (qu m1 q).
Proof.
  intros Hq. unfold b2p_q_unnorm. apply validated_fin. destruct (Rle_dec d2 0); [exact I|].
  destruct (Rlt_dec (m1 * q) m2min); [exact I|].
  rewrite xln_fin, xmul_fin by auto. apply fin_or_ninf_add; [exact I|apply taper_fin].
Qed.
Lemma b2p_q1_pos m1 : m2min < m1 -> m1 <= mmax -> 0 < wexp (qu m1 1).
Proof.
  intros A B. unfold b2p_q_unnorm. rewrite sandwich_q1 by lra.
  replace (validated validate true) with (fun x : X => x) by (destruct validate; reflexivity).
  destruct (Rle_dec d2 0); [lra|]. destruct (Rlt_dec (m1 * 1) m2min); [lra|]. rewrite xln_fin, xmul_fin by lra.
  rewrite wexp_add. apply Rmult_lt_0_compat; [apply exp_pos|]. apply taper_pos.
  apply scaled_pos; lra.
Qed.
Lemma b2p_Zq_pos m1 : m2min < m1 -> m1 <= mmax -> 0 < Zq m1.
Proof.
  intros A0 B0. destruct q_grid_facts as (A & B & C & D). unfold b2p_Zq.
  apply (trapezoid_pos q_grid (fun q => wexp (qu m1 q)) 1); auto.
  - intros; apply wexp_nonneg.
  - now apply b2p_q1_pos.
Qed.

Theorem b2p_q_normalised m1 : In m1 (b2p_m1s m2min mmax) -> m2min < m1 ->
  trapezoid q_grid (map (fun q => wexp (lp m1 q)) q_grid) = wexp (xsub (m1u m1) logZ).
Proof.
  intros Hin Hlow. pose proof b2p_Z_pos as P.
  assert (Hr : m2min <= m1 <= mmax) by (unfold b2p_m1s in Hin; apply linspace_range in Hin; [lra|lra|lia]).
  assert (HZ : 0 < Zq m1) by (apply b2p_Zq_pos; lra).
  assert (Hi : interp_lr m1 (b2p_m1s m2min mmax) (map Zq (b2p_m1s m2min mmax)) 1 1 = Zq m1).
  { apply interp_lr_knot; auto. apply linspace_inc; [lra|lia]. }
  assert (Hf : fin_or_ninf (m1u m1)).
  { destruct (Rlt_dec m1 m1min).
    - rewrite b2p_m1_edge by lra. exact I.
    - apply b2p_m1_fin; lra. }
  rewrite (trapezoid_ext _ _ (fun q => wexp (m1u m1) / b2p_Z / Zq m1 * wexp (qu m1 q))).
  - rewrite trapezoid_scale. change (trapezoid q_grid (map (fun q => wexp (qu m1 q)) q_grid)) with (Zq m1).
    rewrite b2p_logZ_eq, wexp_xsub_ln by lra. field. lra.
  - intros q Hq. destruct q_grid_facts as (_ & _ & _ & D). specialize (D q Hq).
    assert (Fq : fin_or_ninf (qu m1 q)) by (apply b2p_q_fin; lra).
    unfold b2p_log_prob. rewrite Hi, b2p_logZ_eq. destruct (Rle_dec (Zq m1) 0); [lra|].
    destruct (mass_ratio_mass_sandwich (Fin m2min) (Fin mmax) (Fin m1) (Fin q)) eqn:EM.
    + replace (validated validate true) with (fun x : X => x) by (destruct validate; reflexivity).
      rewrite wexp_combine; [|auto|exact Fq|lra|auto]. field. lra.
    + destruct validate eqn:EV.
      * unfold validated at 1. cbn [wexp]. unfold b2p_q_unnorm. rewrite EM. unfold validated. cbn [wexp]. ring.
      * unfold validated at 1.
        rewrite wexp_combine; [|auto|exact Fq|lra|auto]. field. lra.
Qed.

(** equal minimum masses: the two grids coincide and the whole density sums to one *)
Theorem b2p_normalised : m1min = m2min ->
  trapezoid grid (map (fun m1 => trapezoid q_grid (map (fun q => wexp (lp m1 q)) q_grid)) grid) = 1.
Proof.
  intros E. rewrite <- b2p_m1_normalised. apply trapezoid_ext. intros m1 Hin.
  pose proof (linspace_range m1min mmax 1000 m1 ltac:(lra) ltac:(lia) Hin) as Hr.
  destruct (Rlt_dec m1min m1).
  - apply b2p_q_normalised; [|lra]. unfold b2p_m1s. now rewrite <- E.
  - assert (m1 = m1min) by lra. subst m1. pose proof b2p_Z_pos as P.
    rewrite b2p_logZ_eq, wexp_xsub_ln, b2p_m1_edge by (auto; lra). cbn [wexp].
    rewrite (trapezoid_ext _ _ (fun q => 0 * 1)).
    + rewrite (trapezoid_scale 0 q_grid (fun _ => 1)). unfold Rdiv. ring.
    + intros q _. unfold b2p_log_prob. rewrite b2p_m1_edge, b2p_logZ_eq, xln_fin by (auto; lra).
      rewrite Rmult_0_l. unfold validated.
      replace (xsub NInf (Fin (ln b2p_Z))) with NInf by reflexivity.
      match goal with |- context [xadd NInf ?y] => generalize y end. intros y.
      destruct validate; [destruct (mass_ratio_mass_sandwich _ _ _ _)|]; destruct y; reflexivity.
Qed.
End B2p.

(** ** the specification's sums are the ones computed *)
Lemma trapezoid_sum_eq f xs : trapezoid_sum f xs = trapezoid xs (map f xs).
Proof.
  induction xs as [|x xs IH]; [reflexivity|]. destruct xs as [|y xs]; [reflexivity|].
  change ((f x + f y) / 2 * (y - x) + trapezoid_sum f (y :: xs)
          = (y - x) * (f y + f x) / 2 + trapezoid (y :: xs) (map f (y :: xs))).
  rewrite IH. field.
Qed.
Lemma nodes_eq a b n : (2 <= n)%nat -> nodes a b n = linspace a b n.
Proof.
  intros Hn. unfold nodes, linspace. apply map_ext. intros i. field. apply not_0_INR. lia.
Qed.
Lemma q_nodes : nodes (5 / 1000) 1 500 = q_grid.
Proof. apply nodes_eq. lia. Qed.
