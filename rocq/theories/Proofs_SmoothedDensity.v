(** Lemmas about the density of the smoothed hybrid mass models. *)
From Coq Require Import Bool Reals List Lia Lra.
From Coquelicot Require Import Coquelicot.
From Verif Require Import Model_X Spec_X Proofs_X Model_Cosmology Model_Mass Model_Spin Spec_Density Proofs_Powerlaw Proofs_PowerlawJvp Proofs_Transform Proofs_Mass
  Proofs_Cosmology Proofs_MassGrid Proofs_Integral Proofs_Spin Model_SmoothedDensity.
Import ListNotations.
Open Scope R_scope.

Lemma mixture_value probs lps : List.Forall (fun p => 0 <= p) probs -> rsum probs = 1 -> List.Forall fin_or_ninf lps ->
  fin_or_ninf (mixture_general probs lps)
  /\ wexp (mixture_general probs lps) = rsum (map (fun p => fst p * wexp (snd p)) (combine probs lps)).
Proof.
  intros Hp Hs Hl. unfold mixture_general. rewrite log_softmax_normalised by auto.
  assert (HF : List.Forall fin_or_ninf (map (fun p => xadd (fst p) (snd p)) (combine (map (fun p => xln (Fin p)) probs) lps))
    /\ rsum (map wexp (map (fun p => xadd (fst p) (snd p)) (combine (map (fun p => xln (Fin p)) probs) lps)))
       = rsum (map (fun p => fst p * wexp (snd p)) (combine probs lps))
    /\ 0 <= rsum (map (fun p => fst p * wexp (snd p)) (combine probs lps))).
  { clear Hs. revert lps Hl. induction Hp as [|p probs Hp Hps IH]; intros [|l lps] Hl; cbn [map combine rsum fst snd];
      try (repeat split; auto; lra).
    inversion Hl; subst. destruct (IH lps) as (A & B & C); auto.
    destruct (xln_nonneg_wexp p Hp) as [P1 P2]. repeat split.
    - constructor; auto. now apply fin_or_ninf_add.
    - rewrite B, wexp_xadd, P2 by auto. reflexivity.
    - pose proof (wexp_nonneg l). pose proof (Rmult_le_pos p (wexp l) Hp H). lra. }
  destruct HF as (A & B & C). rewrite logsumexp_fin, B by auto. now apply xln_nonneg_wexp.
Qed.

Lemma interp_cell_between : forall l a b r (f : R -> R) x, inc1 (l ++ a :: b :: r) -> a <= x <= b ->
  interp_cell x (map (fun x => (x, f x)) (l ++ a :: b :: r)) = f a + (x - a) / (b - a) * (f b - f a).
Proof.
  induction l as [|y l IH]; intros a b r f x Hi Hx.
  - cbn [app] in *. destruct Hi as [Hab Hi]. cbn [map interp_cell].
    destruct r as [|c r]; [reflexivity|]. cbn [map]. destruct (Rlt_dec x b); [reflexivity|].
    assert (x = b) by lra. subst x. destruct Hi as [Hbc Hi].
    change (interp_cell b (map (fun x => (x, f x)) (b :: c :: r)) = f a + (b - a) / (b - a) * (f b - f a)).
    rewrite interp_cell_knot; [|split; auto|now left]. field. lra.
  - assert (Hi' : inc1 (l ++ a :: b :: r)) by now apply inc1_tail in Hi.
    specialize (IH a b r f x Hi' Hx).
    assert (Hz : forall z, In z (l ++ a :: b :: r) -> y < z) by (intros z Hz; now apply (inc1_head y (l ++ a :: b :: r) z)).
    destruct l as [|z l].
    + cbn [app map] in *. rewrite <- IH.
      change (interp_cell x ((y, f y) :: (a, f a) :: (b, f b) :: map (fun x => (x, f x)) r)) with
        (if Rlt_dec x a then f y + (x - y) / (a - y) * (f a - f y) else interp_cell x ((a, f a) :: (b, f b) :: map (fun x => (x, f x)) r)).
      destruct (Rlt_dec x a); [lra|reflexivity].
    + assert (z <= a).
      { destruct (Req_dec z a); [lra|]. assert (z < a); [|lra]. apply (inc1_head z (l ++ a :: b :: r)); [exact Hi'|].
        apply in_or_app. right. now left. }
      rewrite <- IH. cbn [app map]. destruct (l ++ a :: b :: r) as [|w s] eqn:E; [destruct l; discriminate|].
      cbn [map]. change (interp_cell x ((y, f y) :: (z, f z) :: (w, f w) :: map (fun x => (x, f x)) s)) with
        (if Rlt_dec x z then f y + (x - y) / (z - y) * (f z - f y) else interp_cell x ((z, f z) :: (w, f w) :: map (fun x => (x, f x)) s)).
      destruct (Rlt_dec x z); [lra|reflexivity].
Qed.
(** a point in the range lies between two consecutive nodes *)
Lemma between_nodes : forall xs x, inc1 xs -> (2 <= length xs)%nat -> hd 0 xs <= x <= last xs 0 ->
  exists l a b r, xs = l ++ a :: b :: r /\ a <= x <= b.
Proof.
  induction xs as [|y xs IH]; intros x Hi Hl Hx; [simpl in Hl; lia|].
  destruct xs as [|z xs]; [simpl in Hl; lia|]. destruct (Rle_dec x z).
  - exists [], y, z, xs. cbn [hd] in Hx. split; auto. lra.
  - destruct xs as [|w xs]; [cbn [last] in Hx; lra|].
    destruct (IH x) as (l & a & b & r & E & Hab).
    + now apply inc1_tail in Hi.
    + simpl. lia.
    + cbn [hd]. split; [lra|]. change (last (z :: w :: xs) 0) with (last (y :: z :: w :: xs) 0). lra.
    + exists (y :: l), a, b, r. rewrite E. auto.
Qed.
Lemma inc1_app_pair l a b r : inc1 (l ++ a :: b :: r) -> a < b.
Proof. induction l as [|y l IH]; intros H; [now destruct H|]. apply IH. now apply inc1_tail in H. Qed.

Lemma interp_lr_between l a b r (f : R -> R) x u v : inc1 (l ++ a :: b :: r) -> a <= x <= b ->
  interp_lr x (l ++ a :: b :: r) (map f (l ++ a :: b :: r)) u v = f a + (x - a) / (b - a) * (f b - f a).
Proof.
  intros Hi Hx. pose proof (inc1_app_pair _ _ _ _ Hi) as Hab.
  set (xs := l ++ a :: b :: r) in *.
  assert (Ha : hd 0 xs <= a).
  { unfold xs. destruct l as [|y l]; [cbn; lra|]. cbn [app hd]. left. apply (inc1_head y (l ++ a :: b :: r)); auto.
    apply in_or_app. right. now left. }
  assert (Hb : b <= last xs 0).
  { apply inc1_last_ge; auto. unfold xs. apply in_or_app. right. right. now left. }
  unfold interp_lr, interp. destruct (Rlt_dec x (hd 0 xs)); [lra|]. destruct (Rlt_dec (last xs 0) x); [lra|].
  rewrite combine_map_self. now apply interp_cell_between.
Qed.

Lemma val_ninf r a b c d e : fin_or_ninf a -> fin_or_ninf b -> fin_or_ninf e -> b = NInf \/ e = NInf ->
  (let v := xsub (xadd (xadd (Fin r) (xsub (xadd a b) (Fin c))) e) (Fin d) in if isneginf v then NInf else v) = NInf.
Proof. intros A B C [-> | ->]; [destruct a, e|destruct a, b]; cbn in *; tauto || reflexivity. Qed.

Lemma trapezoid_plus : forall xs (f g : R -> R),
  trapezoid xs (map (fun x => f x + g x) xs) = trapezoid xs (map f xs) + trapezoid xs (map g xs).
Proof.
  induction xs as [|x xs IH]; intros f g; [simpl; ring|]. destruct xs as [|y xs]; [simpl; ring|].
  specialize (IH f g). cbn [map] in *.
  change ((y - x) * (f y + g y + (f x + g x)) / 2 + trapezoid (y :: xs) (f y + g y :: map (fun x => f x + g x) xs)
          = (y - x) * (f y + f x) / 2 + trapezoid (y :: xs) (f y :: map f xs)
          + ((y - x) * (g y + g x) / 2 + trapezoid (y :: xs) (g y :: map g xs))).
  rewrite IH. field.
Qed.

Section Density.
Context (T : Type).
Variable validate : bool.
Variables beta d1 d2 log_rate m1max m1min m2min : R.
Variable lambdas : list R.
Variable components : list ((R -> X) * (T -> X)).
Variable rest_support : R -> T -> bool.

Notation qu := (sd_q_unnorm beta d2 m1max m2min).
Notation Zq := (sd_Zq beta d2 m1max m2min).
Notation Z := (sd_Z d1 m1max m1min lambdas components).
Notation lp := (sd_log_prob validate beta d1 d2 log_rate m1max m1min m2min lambdas components rest_support).
Notation grid := (sd_m1s m1max m1min).
Notation taper x := (log_planck_taper_window x).

Hypothesis Hd1 : 0 < d1.
Hypothesis Hd2 : 0 < d2.
Hypothesis Hm : 0 < m1min < m1max.
Hypothesis Hm2 : 0 < m2min.
Hypothesis Hl : List.Forall (fun p => 0 <= p) lambdas.
Hypothesis Hs : rsum lambdas = 1.
Hypothesis Hc : List.Forall (fun c => (forall m, fin_or_ninf (fst c m)) /\ (forall t, fin_or_ninf (snd c t))) components.
Hypothesis Hsup : forall m t, List.Exists (fun c => fst c m <> NInf /\ snd c t <> NInf) components -> rest_support m t = true.

Lemma safe_delta_pos d : 0 < d -> safe_delta d = d.
Proof. intros. unfold safe_delta. destruct (Rle_dec d 0); [lra|auto]. Qed.

Definition mass_mix (m : R) : R := rsum (map (fun p => fst p * wexp (fst (snd p) m)) (combine lambdas components)).
Definition joint_mix (m : R) (t : T) : R :=
  rsum (map (fun p => fst p * (wexp (fst (snd p) m) * wexp (snd (snd p) t))) (combine lambdas components)).

Lemma mass_mix_eq m : fin_or_ninf (mixture_general lambdas (map (fun c => fst c m) components))
  /\ wexp (mixture_general lambdas (map (fun c => fst c m) components)) = mass_mix m.
Proof.
  destruct (mixture_value lambdas (map (fun c => fst c m) components) Hl Hs) as [A B].
  - rewrite Forall_map. eapply Forall_impl; [|exact Hc]. now intros c [H _].
  - split; auto. rewrite B. unfold mass_mix. f_equal. clear. revert components. induction lambdas as [|p l IH]; intros [|c cs]; auto.
    cbn [map combine fst snd]. f_equal. apply IH.
Qed.
Lemma rest_eq m t : fin_or_ninf (sd_rest lambdas components m t) /\ wexp (sd_rest lambdas components m t) = joint_mix m t.
Proof.
  unfold sd_rest. destruct (mixture_value lambdas (map (fun c => xadd (fst c m) (snd c t)) components) Hl Hs) as [A B].
  - rewrite Forall_map. eapply Forall_impl; [|exact Hc]. intros c [H1 H2]. now apply fin_or_ninf_add.
  - split; auto. rewrite B. unfold joint_mix. f_equal. clear A B Hs Hl Hsup. revert Hc. revert components.
    induction lambdas as [|p l IH]; intros [|c cs] Hc; auto.
    inversion Hc as [|? ? [H1 H2] Hc']; subst. cbn [map combine fst snd]. f_equal; [|now apply IH].
    now rewrite wexp_xadd.
Qed.
(** outside the union of the supports the mixture vanishes *)
Lemma rest_outside m t : rest_support m t = false -> joint_mix m t = 0.
Proof.
  intros H. assert (N : ~ List.Exists (fun c => fst c m <> NInf /\ snd c t <> NInf) components).
  { intros E. rewrite (Hsup m t E) in H. discriminate. }
  assert (Q : List.Forall (fun c => wexp (fst c m) * wexp (snd c t) = 0) components).
  { rewrite Forall_forall. intros c Hin. destruct (fst c m) eqn:E1, (snd c t) eqn:E2; cbn [wexp]; try ring;
      exfalso; apply N; apply List.Exists_exists; exists c; rewrite E1, E2; repeat split; auto; discriminate. }
  unfold joint_mix. clear - Q. revert Q. revert components. induction lambdas as [|p l IH]; intros [|c cs] Q; auto.
  inversion Q; subst. cbn [map combine rsum fst snd]. rewrite IH by auto. rewrite H1. ring.
Qed.

Definition m1_weight (m : R) : R := mass_mix m * wexp (taper ((m - m1min) / d1)).
Lemma sd_Z_eq : Z = trapezoid grid (map m1_weight grid).
Proof.
  unfold sd_Z. change (sd_mm m1max m1min) with grid. f_equal. apply map_ext. intros m. unfold sd_prob_m1, m1_weight.
  destruct (Rle_dec d1 0); [lra|]. change wval with wexp. unfold sd_log_prob_m1. rewrite safe_delta_pos by auto.
  destruct (mass_mix_eq m) as [A B]. rewrite wexp_xadd, B; auto. apply taper_fin.
Qed.
Lemma mass_mix_nonneg m : 0 <= mass_mix m.
Proof. destruct (mass_mix_eq m) as [_ <-]. apply wexp_nonneg. Qed.
Lemma m1_weight_nonneg m : 0 <= m1_weight m.
Proof. apply Rmult_le_pos; [apply mass_mix_nonneg|apply wexp_nonneg]. Qed.

Definition q_weight (m1 q : R) : R := Rpower q beta * wexp (taper ((m1 * q - m2min) / d2)).
Lemma taper_neg x : x <= 0 -> wexp (taper x) = 0.
Proof. intros. now rewrite window_low. Qed.
Lemma scaled_nonpos a d : 0 < d -> a <= 0 -> a / d <= 0.
Proof.
  intros Hd Ha. unfold Rdiv. assert (0 < / d) by now apply Rinv_0_lt_compat. nra.
Qed.
Lemma qu_fin m1 q : fin_or_ninf (qu m1 q).
Proof.
  unfold sd_q_unnorm. destruct (Rle_dec d2 0); [exact I|]. destruct (Rlt_dec (m1 * q) m2min); [exact I|].
  destruct (Rlt_dec m1 (m1 * q)); [exact I|]. destruct (Rlt_dec m1max m1); [exact I|].
  destruct (isneginf _); [exact I|].
  destruct (Rlt_dec 0 q).
  - rewrite xln_fin, xmul_fin by auto. apply fin_or_ninf_add; [exact I|apply taper_fin].
  - exfalso. assert (0 < m1 * q) by lra. assert (0 < m1 \/ m1 < 0 \/ m1 = 0) as [h|[h|h]] by lra; nra.
Qed.
Lemma qu_value m1 q : 0 < m1 <= m1max -> 0 < q <= 1 -> wexp (qu m1 q) = q_weight m1 q.
Proof.
  intros Hm1 Hq. unfold sd_q_unnorm, q_weight. rewrite safe_delta_pos by auto. destruct (Rle_dec d2 0); [lra|].
  destruct (Rlt_dec (m1 * q) m2min).
  { rewrite taper_neg by (apply scaled_nonpos; lra). cbn [wexp]. ring. }
  destruct (Rlt_dec m1 (m1 * q)); [nra|]. destruct (Rlt_dec m1max m1); [lra|].
  destruct (taper ((m1 * q - m2min) / d2)) eqn:E; cbn [isneginf]; pose proof (taper_fin ((m1 * q - m2min) / d2)) as F; rewrite E in F;
    cbn [fin_or_ninf] in F; try tauto.
  - rewrite xln_fin, xmul_fin by lra. cbn [xadd wexp]. rewrite exp_plus. reflexivity.
  - cbn [wexp]. ring.
Qed.
Lemma qu_zero m1 q : m1 <= 0 \/ m1max < m1 \/ q <= 0 \/ 1 < q \/ m1 * q <= m2min -> wexp (qu m1 q) = 0.
Proof.
  intros H. unfold sd_q_unnorm. rewrite safe_delta_pos by auto. destruct (Rle_dec d2 0); [reflexivity|].
  destruct (Rlt_dec (m1 * q) m2min); [reflexivity|].
  destruct (Rlt_dec m1 (m1 * q)); [reflexivity|]. destruct (Rlt_dec m1max m1); [reflexivity|].
  assert (m1 * q <= m2min).
  { destruct H as [h|[h|[h|[h|h]]]]; [|lra| | |exact h]; exfalso; nra. }
  rewrite window_low by (apply scaled_nonpos; lra). reflexivity.
Qed.
Lemma sd_Zq_eq m1 : 0 < m1 <= m1max -> Zq m1 = trapezoid q_grid (map (q_weight m1) q_grid).
Proof.
  intros. unfold sd_Zq. apply trapezoid_ext. intros q Hq. change wval with wexp. apply qu_value; auto.
  now apply q_grid_facts.
Qed.
Lemma q_weight_nonneg m1 q : 0 <= q_weight m1 q.
Proof. apply Rmult_le_pos; [left; apply exp_pos|apply wexp_nonneg]. Qed.
Lemma sd_Zq_nonneg m1 : 0 <= Zq m1.
Proof. unfold sd_Zq. apply trapezoid_nonneg; [apply q_grid_facts|]. intros. apply wexp_nonneg. Qed.
Lemma sd_Zq_pos m1 : m2min < m1 -> m1 <= m1max -> 0 < Zq m1.
Proof.
  intros A0 B0. rewrite sd_Zq_eq by lra. destruct q_grid_facts as (A & B & C & D).
  apply (trapezoid_pos q_grid (q_weight m1) 1); auto.
  - intros; apply q_weight_nonneg.
  - unfold q_weight. apply Rmult_lt_0_compat; [apply exp_pos|]. apply taper_pos, scaled_pos; lra.
Qed.
Lemma sd_Zq_zero m1 : m1 <= m2min -> Zq m1 = 0.
Proof.
  intros H. unfold sd_Zq. rewrite (trapezoid_ext _ _ (fun _ => 0 * 1)).
  - rewrite (trapezoid_scale 0 q_grid (fun _ => 1)). ring.
  - intros q Hq. change wval with wexp. destruct q_grid_facts as (_ & _ & _ & D). specialize (D q Hq).
    rewrite Rmult_0_l. apply qu_zero. assert (m1 <= 0 \/ 0 < m1) as [h|h] by lra; [now left|].
    do 4 right. nra.
Qed.

(** the interpolated normaliser *)
Definition Zi (m1 : R) : R := interp_lr m1 grid (map Zq grid) 0 0.
Lemma grid_inc : inc1 grid.
Proof. apply linspace_inc; [lra|lia]. Qed.
Lemma Zi_knot m1 : In m1 grid -> Zi m1 = Zq m1.
Proof. intros. unfold Zi. apply interp_lr_knot; auto. apply grid_inc. Qed.
Lemma Zi_between l a b r m1 : grid = l ++ a :: b :: r -> a <= m1 <= b ->
  Zi m1 = Zq a + (m1 - a) / (b - a) * (Zq b - Zq a).
Proof. intros E H. unfold Zi. rewrite E. apply interp_lr_between; auto. rewrite <- E. apply grid_inc. Qed.
Lemma Zi_zero_low m1 q : m1min <= m1 <= m1max -> Zi m1 <= 0 -> wexp (qu m1 q) = 0.
Proof.
  intros Hm1 HZ.
  destruct (between_nodes grid m1) as (l & a & b & r & E & Hab).
  - apply grid_inc.
  - unfold sd_m1s. rewrite linspace_length. lia.
  - unfold sd_m1s. rewrite linspace_hd, linspace_last by lia. lra.
  - rewrite (Zi_between _ _ _ _ _ E Hab) in HZ. pose proof grid_inc as Hi. rewrite E in Hi.
    pose proof (inc1_app_pair _ _ _ _ Hi) as Hlt.
    assert (Hb : b <= m1max).
    { assert (In b grid) by (rewrite E; apply in_or_app; right; right; now left).
      apply (linspace_range m1min m1max 1000); auto; [lra|lia]. }
    pose proof (sd_Zq_nonneg a) as Na.
    set (w := (m1 - a) / (b - a)) in *.
    assert (Hw : 0 <= w <= 1).
    { unfold w. split; [apply Rmult_le_pos; [lra|left; apply Rinv_0_lt_compat; lra]|].
      apply (Rmult_le_reg_r (b - a)); [lra|]. unfold Rdiv. rewrite Rmult_assoc, Rinv_l by lra. lra. }
    destruct (Rle_dec m1 m2min) as [h|h].
    + apply qu_zero. destruct (Rle_dec q 0); [tauto|]. destruct (Rlt_dec 1 q); [tauto|]. do 4 right. nra.
    + exfalso. assert (P : 0 < Zq b) by (apply sd_Zq_pos; lra).
      assert (w <> 0 \/ w = 0) as [h'|h'] by tauto.
      * assert (0 < w * Zq b) by (apply Rmult_lt_0_compat; lra). nra.
      * assert (m1 = a).
        { assert (w * (b - a) = m1 - a) by (unfold w; field; lra). rewrite h' in H. lra. }
        subst a. assert (0 < Zq m1) by (apply sd_Zq_pos; lra). rewrite h' in HZ. lra.
Qed.

Hypothesis HZpos : 0 < Z.

Theorem sd_shape m1 t q : m1min <= m1 <= m1max -> 0 <= q <= 1 ->
  fin_or_ninf (lp m1 t q)
  /\ wexp (lp m1 t q) = exp log_rate * (joint_mix m1 t * wexp (taper ((m1 - m1min) / d1)) / Z) * (wexp (qu m1 q) / Zi m1).
Proof.
  intros Hm1 Hq. unfold sd_log_prob. rewrite safe_delta_pos by auto. fold (Zi m1).
  destruct (rest_eq m1 t) as [A B].
  assert (Hok : (rest_support m1 t && (if Rle_dec 0 q then if Rle_dec q 1 then true else false else false))
    = rest_support m1 t).
  { destruct (Rle_dec 0 q); [|lra]. destruct (Rle_dec q 1); [|lra]. apply andb_true_r. }
  rewrite Hok. clear Hok.
  set (val := xsub (xadd (xadd (Fin log_rate) _) (qu m1 q)) _).
  assert (V : fin_or_ninf val
     /\ wexp val = exp log_rate * (joint_mix m1 t * wexp (taper ((m1 - m1min) / d1)) / Z) * (wexp (qu m1 q) / Zi m1)).
  { unfold val, sd_logZ.
    assert (F1 : fin_or_ninf (xadd (sd_rest lambdas components m1 t) (taper ((m1 - m1min) / d1)))) by (apply fin_or_ninf_add; [auto|apply taper_fin]).
    pose proof (fin_or_ninf_sub_ln _ _ HZpos F1) as F2.
    assert (F3 := fin_or_ninf_add (Fin log_rate) _ I F2).
    assert (F4 := fin_or_ninf_add _ _ F3 (qu_fin m1 q)).
    assert (W : wexp (xadd (xadd (Fin log_rate) (xsub (xadd (sd_rest lambdas components m1 t) (taper ((m1 - m1min) / d1))) (xln (Fin Z)))) (qu m1 q))
       = exp log_rate * (joint_mix m1 t * wexp (taper ((m1 - m1min) / d1)) / Z) * wexp (qu m1 q)).
    { rewrite wexp_xadd by (auto; apply qu_fin). rewrite (wexp_xadd (Fin log_rate)) by (auto; exact I).
      rewrite wexp_xsub_ln by auto. rewrite wexp_xadd by (auto; apply taper_fin). rewrite B. reflexivity. }
    destruct (Rle_dec (Zi m1) 0).
    - unfold xsub at 1 3. cbn [xopp]. rewrite Ropp_0, xadd_0_r. split; auto.
      rewrite W, Zi_zero_low by auto. unfold Rdiv. ring.
    - split; [apply fin_or_ninf_sub_ln; auto; lra|]. rewrite wexp_xsub_ln by lra. rewrite W. unfold Rdiv. ring. }
  destruct V as [V1 V2].
  assert (V3 : (if Rle_dec d1 0 then NInf else if isneginf val then NInf else val) = val).
  { destruct (Rle_dec d1 0); [lra|]. now destruct val. }
  rewrite V3. destruct (rest_support m1 t) eqn:ES.
  - replace (validated validate true val) with val by (destruct validate; reflexivity). auto.
  - unfold validated. destruct validate; [|auto]. split; [exact I|]. cbn [wexp]. rewrite (rest_outside m1 t ES).
    unfold Rdiv. ring.
Qed.

Theorem sd_outside m1 t q : m1 <= m1min \/ m1max < m1 \/ q <= 0 \/ 1 < q \/ m1 * q <= m2min -> lp m1 t q = NInf.
Proof.
  intros H. unfold sd_log_prob. rewrite safe_delta_pos by auto.
  assert (E : (if Rle_dec d1 0 then NInf else
     let v := xsub (xadd (xadd (Fin log_rate) (xsub (xadd (sd_rest lambdas components m1 t) (taper ((m1 - m1min) / d1)))
         (sd_logZ d1 m1max m1min lambdas components))) (qu m1 q))
        (if Rle_dec (interp_lr m1 grid (map Zq grid) 0 0) 0 then Fin 0 else xln (Fin (interp_lr m1 grid (map Zq grid) 0 0))) in
       if isneginf v then NInf else v) = NInf).
  { destruct (Rle_dec d1 0); [lra|].
    set (lz := if Rle_dec _ _ then Fin 0 else _).
    assert (L : exists z, lz = Fin z).
    { unfold lz. destruct (Rle_dec _ _); [eexists; reflexivity|]. rewrite xln_fin by lra. eexists; reflexivity. }
    destruct L as [z ->]. unfold sd_logZ. rewrite xln_fin by auto.
    destruct (rest_eq m1 t) as [A _].
    assert (Q : m1 <= m1min \/ qu m1 q = NInf).
    { destruct H as [h|h]; [now left|right]. pose proof (qu_zero m1 q ltac:(tauto)) as W. pose proof (qu_fin m1 q) as F.
      destruct (qu m1 q) as [x| | |]; try tauto. cbn [wexp] in W. pose proof (exp_pos x). lra. }
    pose proof (qu_fin m1 q) as F. pose proof (taper_fin ((m1 - m1min) / d1)) as Ft.
    destruct Q as [h|h].
    - rewrite window_low by (apply scaled_nonpos; lra).
      apply val_ninf; [exact A|exact I|exact F|tauto].
    - rewrite h. apply val_ninf; [exact A|exact Ft|exact I|tauto]. }
  cbv zeta in *. rewrite E. unfold validated. destruct validate; [destruct (rest_support m1 t && _)|]; reflexivity.
Qed.

(** summing the ratio out at a node *)
Lemma q_sum m1 : In m1 grid -> m2min < m1 -> trapezoid q_grid (map (fun q => wexp (qu m1 q) / Zi m1) q_grid) = 1.
Proof.
  intros Hin Hlow. rewrite (Zi_knot m1 Hin).
  assert (P : 0 < Zq m1).
  { apply sd_Zq_pos; auto. apply (linspace_range m1min m1max 1000) in Hin; [lra|lra|lia]. }
  rewrite (trapezoid_ext _ _ (fun q => / Zq m1 * wexp (qu m1 q))).
  - rewrite trapezoid_scale. change (/ Zq m1 * Zq m1 = 1). field. lra.
  - intros. unfold Rdiv. ring.
Qed.
Lemma q_sum_low m1 : m1 <= m2min -> trapezoid q_grid (map (fun q => wexp (qu m1 q) / Zi m1) q_grid) = 0.
Proof.
  intros Hlow. rewrite (trapezoid_ext _ _ (fun _ => 0 * 1)).
  - rewrite (trapezoid_scale 0 q_grid (fun _ => 1)). ring.
  - intros q Hq. destruct q_grid_facts as (_ & _ & _ & D). specialize (D q Hq).
    rewrite qu_zero; [unfold Rdiv; ring|]. assert (m1 <= 0 \/ 0 < m1) as [h|h] by lra; [now left|]. do 4 right. nra.
Qed.
End Density.

(** the other coordinates integrated out *)
Lemma joint_integral lambdas components box m :
  List.Forall (fun c : (R -> X) * (list R -> X) => iterated_integral box (fun t => wexp (snd c t)) 1) components ->
  iterated_integral box (joint_mix _ lambdas components m) (mass_mix _ lambdas components m).
Proof.
  intros H. unfold joint_mix, mass_mix. revert components H. induction lambdas as [|p l IH]; intros components H.
  { apply (ii_ext _ (fun _ => 0 * 0)); [intros; cbn; ring|]. apply (ii_value _ _ (0 * 0)); [cbn; ring|].
    clear. induction box as [|[a b] box IH]; [reflexivity|]. exists (fun _ => 0 * 0). split; auto.
    evar_last; [apply (is_RInt_const a b (0 * 0))|]. unfold scal; simpl; unfold mult; simpl. ring. }
  destruct components as [|c cs].
  { apply (ii_ext _ (fun _ => 0 * 0)); [intros; cbn; ring|]. apply (ii_value _ _ (0 * 0)); [cbn; ring|].
    clear. induction box as [|[a b] box IH]; [reflexivity|]. exists (fun _ => 0 * 0). split; auto.
    evar_last; [apply (is_RInt_const a b (0 * 0))|]. unfold scal; simpl; unfold mult; simpl. ring. }
  inversion H; subst. cbn [combine map rsum fst snd]. apply ii_plus; [|now apply IH].
  apply (ii_ext _ (fun t => (p * wexp (fst c m)) * wexp (snd c t))); [intros; ring|].
  apply (ii_value _ _ ((p * wexp (fst c m)) * 1)); [ring|]. now apply ii_scal.
Qed.
