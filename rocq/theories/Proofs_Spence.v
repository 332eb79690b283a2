From Coq Require Import Reals Lra Lia QArith Qreals.
From Coquelicot Require Import Coquelicot.
From Verif Require Import Model_Spence Spec_ChiEff Proofs_ChiEff.
Open Scope R_scope.

(** ** the loops *)
Lemma fori_last {A} (body : nat -> A -> A) k i s : fori (S k) i body s = body (i + k)%nat (fori k i body s).
Proof.
  revert i s. induction k as [|k IH]; intros i s.
  { simpl. now rewrite Nat.add_0_r. }
  change (fori (S (S k)) i body s) with (fori (S k) (S i) body (body i s)). rewrite IH.
  change (fori (S k) i body s) with (fori k (S i) body (body i s)). f_equal. lia.
Qed.

Fixpoint psum (f : nat -> R) (k : nat) : R := match k with O => 0 | S k' => psum f k' + f k end.
Definition Lt (v : R) (n : nat) : R := v ^ n / INR n.
Definition Pt (v : R) (n : nat) : R := v ^ n / INR n ^ 2.
Definition cw (n : nat) : R := / (INR n * (INR n + 1) * (INR n + 2)) ^ 2.
Definition Tt (v : R) (n : nat) : R := v ^ n * cw n.

Lemma loop0 z k : fori k 1 (body0 z) (mk0 1 1 0 0) = mk0 (S k) (z ^ k) (psum (Pt z) k) (psum (Lt z) k).
Proof.
  induction k as [|k IH]. { reflexivity. }
  rewrite fori_last, IH. unfold body0. cbn [n0 zfac0 sum1 sum2 psum]. unfold Pt, Lt. cbn [pow].
  rewrite (Rmult_comm (z ^ k) z). f_equal. lia.
Qed.

Lemma S_pos n : 0 < INR (S n).
Proof. rewrite S_INR. pose proof (pos_INR n). lra. Qed.

Lemma loop1 z k : fori k 1 (body1 z) (mk1 1 1 0) = mk1 (S k) (z ^ k) (psum (Tt z) k).
Proof.
  induction k as [|k IH]. { reflexivity. }
  rewrite fori_last, IH. unfold body1. cbn [n1 zfac1 res1 psum]. f_equal. { lia. } { cbn [pow]. ring. }
  f_equal. unfold Tt, cw. rewrite !plus_INR. change (INR 1) with 1. change (INR 2) with (1 + 1).
  replace (z ^ S k) with (z ^ k * z) by (cbn [pow]; ring).
  pose proof (S_pos k). field. lra.
Qed.

(** ** the series of the logarithm and of the dilogarithm *)
Lemma is_derive_monomial v N c : is_derive (fun t => t ^ S N * c) v (INR (S N) * v ^ N * c).
Proof.
  apply (is_derive_ext (fun t => scal c (t ^ S N))). { intros t. unfold scal; simpl; unfold mult; simpl. ring. }
  replace (INR (S N) * v ^ N * c) with (scal c (INR (S N) * 1 * v ^ pred (S N))) by (unfold scal; simpl; unfold mult; simpl; ring).
  apply is_derive_scal. apply (is_derive_pow (fun t => t) (S N) v 1). apply (is_derive_id (K := R_AbsRing)).
Qed.

Lemma is_derive_L v N : v <> 1 -> is_derive (fun t => psum (Lt t) N) v ((1 - v ^ N) / (1 - v)).
Proof.
  intros Hv'. assert (Hv : 1 - v <> 0) by (intros K; apply Hv'; lra). induction N as [|N IH].
  { simpl. replace ((1 - 1) / (1 - v)) with 0 by (field; exact Hv). apply (is_derive_const (K := R_AbsRing) (V := R_NormedModule) 0). }
  cbn [psum]. replace ((1 - v ^ S N) / (1 - v)) with ((1 - v ^ N) / (1 - v) + v ^ N) by (cbn [pow]; field; exact Hv).
  apply (is_derive_plus (K := R_AbsRing) (V := R_NormedModule)). { exact IH. }
  unfold Lt, Rdiv. pose proof (S_pos N). replace (v ^ N) with (INR (S N) * v ^ N * / INR (S N)) by (field; lra).
  apply is_derive_monomial.
Qed.

Lemma is_derive_P v N : v <> 0 -> is_derive (fun t => psum (Pt t) N) v (psum (Lt v) N / v).
Proof.
  intros Hv. induction N as [|N IH].
  { simpl. replace (0 / v) with 0 by (field; exact Hv). apply (is_derive_const (K := R_AbsRing) (V := R_NormedModule) 0). }
  cbn [psum]. replace ((psum (Lt v) N + Lt v (S N)) / v) with (psum (Lt v) N / v + Lt v (S N) / v) by (field; exact Hv).
  apply (is_derive_plus (K := R_AbsRing) (V := R_NormedModule)). { exact IH. }
  unfold Lt, Pt, Rdiv. pose proof (S_pos N).
  replace (v ^ S N * / INR (S N) * / v) with (INR (S N) * v ^ N * / INR (S N) ^ 2) by (change (v ^ S N) with (v * v ^ N); field; split; [exact Hv|lra]).
  apply is_derive_monomial.
Qed.

Lemma L_0 N : psum (Lt 0) N = 0.
Proof. induction N as [|N IH]; cbn [psum]. { reflexivity. } rewrite IH. unfold Lt. cbn [pow]. unfold Rdiv. ring. Qed.
Lemma P_0 N : psum (Pt 0) N = 0.
Proof. induction N as [|N IH]; cbn [psum]. { reflexivity. } rewrite IH. unfold Pt. cbn [pow]. unfold Rdiv. ring. Qed.

Lemma between_abs v c : Rmin 0 v <= c <= Rmax 0 v -> Rabs c <= Rabs v.
Proof. unfold Rmin, Rmax. destruct (Rle_dec 0 v); intros; unfold Rabs; destruct (Rcase_abs c), (Rcase_abs v); lra. Qed.

Lemma continuity_of_derive (f : R -> R) x l : is_derive f x l -> continuity_pt f x.
Proof. intros H. apply continuity_pt_filterlim. apply (ex_derive_continuous f x). now exists l. Qed.

Lemma pow_div_bound c v N : Rabs c <= Rabs v -> Rabs v < 1 -> Rabs (c ^ N / (1 - c)) <= Rabs v ^ N / (1 - Rabs v).
Proof.
  intros Hc Hv. unfold Rdiv. rewrite Rabs_mult, Rabs_inv, <- RPow_abs.
  pose proof (Rle_abs c) as H1. rewrite (Rabs_right (1 - c)) by lra.
  apply Rmult_le_compat. { apply pow_le, Rabs_pos. } { left. apply Rinv_0_lt_compat. lra. }
  { apply pow_incr. split; [apply Rabs_pos|exact Hc]. } { apply Rinv_le_contravar; lra. }
Qed.

Lemma log_series v N : Rabs v < 1 -> Rabs (psum (Lt v) N + ln (1 - v)) <= Rabs v ^ S N / (1 - Rabs v).
Proof.
  intros Hv.
  assert (D : forall t, Rabs t <= Rabs v -> is_derive (fun t => psum (Lt t) N + ln (1 - t)) t (- (t ^ N / (1 - t)))).
  { intros t Ht. pose proof (Rle_abs t).
    replace (- (t ^ N / (1 - t))) with ((1 - t ^ N) / (1 - t) + - / (1 - t)) by (field; lra).
    apply (is_derive_plus (K := R_AbsRing) (V := R_NormedModule)). { apply is_derive_L. lra. }
    auto_derive. { lra. } field. lra. }
  destruct (MVT_gen (fun t => psum (Lt t) N + ln (1 - t)) 0 v (fun t => - (t ^ N / (1 - t)))) as (c & Hc & E).
  { intros x Hx. apply D. apply between_abs. lra. }
  { intros x Hx. eapply continuity_of_derive. apply D. now apply between_abs. }
  rewrite L_0, !Rminus_0_r, ln_1, Rplus_0_r, Rminus_0_r in E. rewrite E, Rabs_mult, Rabs_Ropp.
  replace (Rabs v ^ S N / (1 - Rabs v)) with (Rabs v ^ N / (1 - Rabs v) * Rabs v) by (cbn [pow]; field; lra).
  apply Rmult_le_compat_r. { apply Rabs_pos. } apply pow_div_bound; auto. now apply between_abs.
Qed.

Section Dilog.
Context (Li2 : R -> R) (HLi : dilogarithm Li2).

Lemma Li2_0 : Li2 0 = 0. Proof. apply HLi. Qed.
Lemma Li2_cont x : continuity_pt Li2 x.
Proof. apply continuity_pt_filterlim. apply HLi. Qed.
Lemma Li2_derive x : x <> 0 -> x < 1 -> is_derive Li2 x (- ln (1 - x) / x).
Proof. intros H0 H1. rewrite <- (Rabs_right (1 - x)) by lra. apply HLi; lra. Qed.

Lemma li2_series v N : Rabs v < 1 -> Rabs (psum (Pt v) N - Li2 v) <= Rabs v ^ S N / (1 - Rabs v).
Proof.
  intros Hv.
  assert (Hq : 0 < / (1 - Rabs v)) by (apply Rinv_0_lt_compat; lra).
  destruct (MVT_gen (fun t => psum (Pt t) N - Li2 t) 0 v (fun t => (psum (Lt t) N + ln (1 - t)) / t)) as (c & Hc & E).
  { intros x Hx. pose proof (between_abs v x ltac:(lra)). pose proof (Rle_abs x).
    assert (x <> 0). { intros ->. unfold Rmin, Rmax in Hx. destruct (Rle_dec 0 v); lra. }
    replace ((psum (Lt x) N + ln (1 - x)) / x) with (minus (psum (Lt x) N / x) (- ln (1 - x) / x))
      by (unfold minus, plus, opp; simpl; field; auto).
    apply (is_derive_minus (K := R_AbsRing) (V := R_NormedModule)). { now apply is_derive_P. }
    apply Li2_derive; lra. }
  { intros x Hx. apply continuity_pt_minus; [|apply Li2_cont].
    clear. induction N as [|N IH]; cbn [psum]. { apply continuity_pt_const. now intros a b. }
    apply continuity_pt_plus. { exact IH. } unfold Pt.
    eapply continuity_of_derive. unfold Rdiv. apply is_derive_monomial. }
  rewrite P_0, Li2_0, !Rminus_0_r in E. rewrite E, Rabs_mult.
  replace (Rabs v ^ S N / (1 - Rabs v)) with (Rabs v ^ N / (1 - Rabs v) * Rabs v) by (cbn [pow]; field; lra).
  apply Rmult_le_compat_r. { apply Rabs_pos. }
  pose proof (between_abs v c Hc) as Hcv.
  destruct (Req_dec c 0) as [->|Hc0].
  { unfold Rdiv. rewrite Rinv_0, Rmult_0_r, Rabs_R0. apply Rmult_le_pos. { apply pow_le, Rabs_pos. } lra. }
  unfold Rdiv. rewrite Rabs_mult, Rabs_inv. pose proof (Rabs_pos_lt c Hc0) as Hcp.
  pose proof (log_series c N ltac:(lra)) as HL.
  apply Rmult_le_reg_r with (Rabs c); [exact Hcp|]. rewrite Rmult_assoc, Rinv_l, Rmult_1_r by lra.
  eapply Rle_trans; [exact HL|]. unfold Rdiv. cbn [pow].
  replace (Rabs c * Rabs c ^ N * / (1 - Rabs c)) with (Rabs c ^ N * / (1 - Rabs c) * Rabs c) by ring.
  apply Rmult_le_compat_r. { lra. }
  apply Rmult_le_compat. { apply pow_le, Rabs_pos. } { left. apply Rinv_0_lt_compat. lra. }
  { apply pow_incr. split; [apply Rabs_pos|exact Hcv]. } { apply Rinv_le_contravar; lra. }
Qed.

(** ** the functional equations *)
Lemma zero_derivative (f : R -> R) a b : a <= b -> (forall x, a < x < b -> is_derive f x 0) ->
  (forall x, a <= x <= b -> continuity_pt f x) -> f b = f a.
Proof.
  intros Hab D C. destruct (MVT_gen f a b (fun _ => 0)) as (c & _ & E).
  { intros x. rewrite Rmin_left, Rmax_right by lra. apply D. }
  { intros x. rewrite Rmin_left, Rmax_right by lra. apply C. }
  lra.
Qed.

Definition zeta2 : R := 2 * Li2 (/ 2) + ln 2 ^ 2.

Lemma Li2_comp g g' x : g x <> 0 -> g x < 1 -> is_derive g x g' ->
  is_derive (fun t => Li2 (g t)) x (g' * (- ln (1 - g x) / g x)).
Proof. intros H0 H1 D. apply (is_derive_comp Li2 g x _ g'). { now apply Li2_derive. } exact D. Qed.

Lemma ln_half : ln (/ 2) = - ln 2. Proof. apply ln_Rinv. lra. Qed.

Lemma reflection z : 0 < z < 1 -> Li2 (1 - z) = zeta2 - Li2 z - ln z * ln (1 - z).
Proof.
  intros Hz.
  pose (f := fun t => Li2 (1 - t) + Li2 t + ln t * ln (1 - t)).
  assert (D : forall x, 0 < x < 1 -> is_derive f x 0).
  { intros x Hx.
    assert (D1 : is_derive (fun t => Li2 (1 - t)) x (-1 * (- ln (1 - (1 - x)) / (1 - x)))).
    { apply Li2_comp; try lra. auto_derive; trivial; lra. }
    assert (D2 := Li2_derive x ltac:(lra) ltac:(lra)).
    assert (D3 : is_derive (fun t => ln t * ln (1 - t)) x (/ x * ln (1 - x) - ln x / (1 - x))).
    { auto_derive. { split; [lra|]. split; [lra|trivial]. } unfold Rminus. field. lra. }
    pose proof (is_derive_plus (K := R_AbsRing) (V := R_NormedModule) _ _ _ _ _ (is_derive_plus (K := R_AbsRing) (V := R_NormedModule) _ _ _ _ _ D1 D2) D3) as D4.
    unfold f. eapply is_derive_ext_loc; [|eapply is_derive_ext; [|]].
    3: { replace 0 with (plus (plus (-1 * (- ln (1 - (1 - x)) / (1 - x))) (- ln (1 - x) / x)) (/ x * ln (1 - x) - ln x / (1 - x))); [exact D4|].
         unfold plus; simpl. replace (1 - (1 - x)) with x by ring. field. lra. }
    { apply filter_forall. intros t. reflexivity. } { reflexivity. } }
  assert (Eh : f z = f (/ 2)).
  { destruct (Rle_dec z (/ 2)) as [Hl|Hl].
    { symmetry. apply zero_derivative. { lra. } { intros x Hx. apply D. lra. }
      intros x Hx. eapply continuity_of_derive. apply D. lra. }
    apply zero_derivative. { lra. } { intros x Hx. apply D. lra. }
    intros x Hx. eapply continuity_of_derive. apply D. lra. }
  unfold f in Eh. replace (1 - / 2) with (/ 2) in Eh by field. rewrite ln_half in Eh. unfold zeta2. lra.
Qed.

(** Landen's identity at -1 *)
Lemma Li2_minus_1 : Li2 (-1) = - zeta2 / 2.
Proof.
  pose (f := fun t => Li2 t + Li2 (t / (t - 1)) + ln (1 - t) ^ 2 / 2).
  assert (E : f 0 = f (-1)).
  { apply zero_derivative. { lra. }
    { intros x Hx.
      assert (D1 := Li2_derive x ltac:(lra) ltac:(lra)).
      assert (D2 : is_derive (fun t => Li2 (t / (t - 1))) x ((- / (x - 1) ^ 2) * (- ln (1 - x / (x - 1)) / (x / (x - 1))))).
      { apply (Li2_comp (fun t => t / (t - 1))).
        { unfold Rdiv. apply Rmult_integral_contrapositive_currified. lra. apply Rinv_neq_0_compat. lra. }
        { replace (x / (x - 1)) with (1 - / (1 - x)) by (field; lra). pose proof (Rinv_0_lt_compat (1 - x)). lra. }
        auto_derive. { lra. } field. lra. }
      assert (D3 : is_derive (fun t => ln (1 - t) ^ 2 / 2) x (- ln (1 - x) / (1 - x))).
      { auto_derive. { lra. } unfold Rminus. field. lra. }
      pose proof (is_derive_plus (K := R_AbsRing) (V := R_NormedModule) _ _ _ _ _ (is_derive_plus (K := R_AbsRing) (V := R_NormedModule) _ _ _ _ _ D1 D2) D3) as D4.
      replace 0 with (plus (plus (- ln (1 - x) / x) (- / (x - 1) ^ 2 * (- ln (1 - x / (x - 1)) / (x / (x - 1))))) (- ln (1 - x) / (1 - x))); [exact D4|].
      unfold plus; simpl. replace (1 - x / (x - 1)) with (/ (1 - x)) by (field; lra). rewrite ln_Rinv by lra. field. lra. }
    intros x Hx. unfold f. apply continuity_pt_plus.
    { apply continuity_pt_plus. { apply Li2_cont. }
      apply (continuity_pt_comp (fun t => t / (t - 1)) Li2). 2: apply Li2_cont.
      eapply continuity_of_derive. auto_derive. { lra. } reflexivity. }
    eapply continuity_of_derive. auto_derive. { lra. } reflexivity. }
  unfold f in E. replace (0 / (0 - 1)) with 0 in E by field. replace (-1 / (-1 - 1)) with (/ 2) in E by field.
  rewrite Li2_0, Rminus_0_r, ln_1 in E. replace (1 - -1) with 2 in E by ring. unfold zeta2. lra.
Qed.

Lemma inversion z : 2 < z -> Li2 (1 - z) = - Li2 (1 - z / (z - 1)) - zeta2 - ln (z - 1) ^ 2 / 2.
Proof.
  intros Hz.
  pose (f := fun t => Li2 (1 - t) + Li2 (1 - t / (t - 1)) + ln (t - 1) ^ 2 / 2).
  assert (D : forall x, 1 < x -> is_derive f x 0).
  { intros x Hx.
    assert (Hi : 0 < / (x - 1)) by (apply Rinv_0_lt_compat; lra).
    assert (D1 : is_derive (fun t => Li2 (1 - t)) x (-1 * (- ln (1 - (1 - x)) / (1 - x)))).
    { apply Li2_comp; try lra. auto_derive; trivial; lra. }
    assert (D2 : is_derive (fun t => Li2 (1 - t / (t - 1))) x (/ (x - 1) ^ 2 * (- ln (1 - (1 - x / (x - 1))) / (1 - x / (x - 1))))).
    { apply (Li2_comp (fun t => 1 - t / (t - 1))).
      { replace (1 - x / (x - 1)) with (- / (x - 1)) by (field; lra). lra. }
      { replace (1 - x / (x - 1)) with (- / (x - 1)) by (field; lra). lra. }
      auto_derive. { lra. } field. lra. }
    assert (D3 : is_derive (fun t => ln (t - 1) ^ 2 / 2) x (ln (x - 1) / (x - 1))).
    { auto_derive. { lra. } unfold Rminus. field. lra. }
    pose proof (is_derive_plus (K := R_AbsRing) (V := R_NormedModule) _ _ _ _ _ (is_derive_plus (K := R_AbsRing) (V := R_NormedModule) _ _ _ _ _ D1 D2) D3) as D4.
    replace 0 with (plus (plus (-1 * (- ln (1 - (1 - x)) / (1 - x))) (/ (x - 1) ^ 2 * (- ln (1 - (1 - x / (x - 1))) / (1 - x / (x - 1))))) (ln (x - 1) / (x - 1))); [exact D4|].
    unfold plus; simpl. replace (1 - (1 - x)) with x by ring. replace (1 - (1 - x / (x - 1))) with (x * / (x - 1)) by (field; lra).
    rewrite ln_mult, ln_Rinv by lra. replace (1 - x / (x - 1)) with (- / (x - 1)) by (field; lra). field. lra. }
  assert (E : f z = f 2).
  { apply zero_derivative. { lra. } { intros x Hx. apply D. lra. }
    intros x Hx. eapply continuity_of_derive. apply D. lra. }
  unfold f in E. replace (2 / (2 - 1)) with 2 in E by field. replace (2 - 1) with 1 in E by ring. replace (1 - 2) with (-1) in E by ring.
  rewrite ln_1, !Li2_minus_1 in E. lra.
Qed.

(** ** the accelerated series *)
Lemma T_identity v N : 4 * v ^ 2 * psum (Tt v) N =
  v ^ 2 * psum (Pt v) N + 4 * v * psum (Pt v) (S N) + psum (Pt v) (S (S N))
  - 3 * v ^ 2 * psum (Lt v) N + 3 * psum (Lt v) (S (S N)) - 4 * v - 575 / 100 * v ^ 2.
Proof.
  induction N as [|N IH].
  { cbn [psum]. unfold Pt, Lt. simpl. field. }
  cbn [psum] in *. rewrite Rmult_plus_distr_l, IH. unfold Tt, cw, Pt, Lt. rewrite !S_INR.
  pose proof (pos_INR N). cbn [pow]. field. repeat split; lra.
Qed.

Definition Err (v : R) (N : nat) : R :=
  (1 + 4 * v + v ^ 2) * Li2 v - (4 * v ^ 2 * psum (Tt v) N + (4 * v + 575 / 100 * v ^ 2 + 3 * (1 - v ^ 2) * ln (1 - v))).

Lemma shrink a b : 0 <= a <= 1 -> 0 <= b -> a * b <= b.
Proof. nra. Qed.

Lemma Err_crude v N : Rabs v < 1 -> Rabs (Err v N) <= 12 * (Rabs v ^ S N / (1 - Rabs v)).
Proof.
  intros Hv. unfold Err. rewrite T_identity.
  pose proof (li2_series v N Hv) as H1. pose proof (li2_series v (S N) Hv) as H2. pose proof (li2_series v (S (S N)) Hv) as H3.
  pose proof (log_series v N Hv) as H4. pose proof (log_series v (S (S N)) Hv) as H5.
  set (b := Rabs v ^ S N / (1 - Rabs v)) in *.
  assert (Hv0 := Rabs_pos v).
  assert (Hb : 0 <= b). { unfold b, Rdiv. apply Rmult_le_pos. { now apply pow_le. } left. apply Rinv_0_lt_compat. lra. }
  assert (B2 : Rabs v ^ S (S N) / (1 - Rabs v) <= b).
  { replace (Rabs v ^ S (S N) / (1 - Rabs v)) with (Rabs v * b) by (unfold b; cbn [pow]; field; lra). apply shrink; lra. }
  assert (B3 : Rabs v ^ S (S (S N)) / (1 - Rabs v) <= b).
  { replace (Rabs v ^ S (S (S N)) / (1 - Rabs v)) with (Rabs v * Rabs v * b) by (unfold b; cbn [pow]; field; lra). apply shrink; [split|exact Hb]. { apply Rmult_le_pos; exact Hv0. } apply Rle_trans with (Rabs v); [apply shrink|]; lra. }
  assert (Vv : -1 < v < 1) by (apply Rabs_def2 in Hv; lra).
  set (p0 := psum (Pt v) N) in *. set (p1 := psum (Pt v) (S N)) in *. set (p2 := psum (Pt v) (S (S N))) in *.
  set (l0 := psum (Lt v) N) in *. set (l2 := psum (Lt v) (S (S N))) in *. set (w := Li2 v) in *. set (g := ln (1 - v)) in *.
  match goal with |- Rabs ?e <= _ => replace e with (v ^ 2 * (w - p0) + 4 * v * (w - p1) + (w - p2) + 3 * v ^ 2 * (l0 + g) - 3 * (l2 + g)) by field end.
  assert (V2 : 0 <= v ^ 2 <= 1) by (split; nra).
  apply Rabs_le_between in H1, H2, H3, H4, H5. apply Rabs_le.
  assert (A1 : - b <= v ^ 2 * (w - p0) <= b) by (split; nra).
  assert (A2 : - b <= v * (w - p1) <= b).
  { apply Rabs_le_between. rewrite Rabs_mult. apply Rle_trans with (1 * b); [|lra]. apply Rmult_le_compat; try apply Rabs_pos. lra. apply Rabs_le. lra. }
  assert (A4 : - b <= v ^ 2 * (l0 + g) <= b) by (split; nra).
  lra.
Qed.

Lemma vanishing a b c v : 0 <= v < 1 -> 0 <= c -> (exists N, forall M, (N <= M)%nat -> a <= b + c * v ^ M) -> a <= b.
Proof.
  intros Hv Hc (N & H). destruct (Rle_dec a b) as [|Hn]; [auto|]. exfalso.
  destruct (pow_lt_1_zero v ltac:(rewrite Rabs_right; lra) ((a - b) / (c + 1)) ltac:(apply Rdiv_lt_0_compat; lra)) as (K & HK).
  specialize (H (Nat.max N K) ltac:(lia)). specialize (HK (Nat.max N K) ltac:(lia)).
  rewrite Rabs_right in HK by (apply Rle_ge, pow_le; lra).
  assert (c * v ^ Nat.max N K <= c * ((a - b) / (c + 1))) by (apply Rmult_le_compat_l; lra).
  assert (c * ((a - b) / (c + 1)) < a - b).
  { replace (c * ((a - b) / (c + 1))) with ((a - b) * (c / (c + 1))) by (field; lra).
    rewrite <- (Rmult_1_r (a - b)) at 2. apply Rmult_lt_compat_l. lra. apply Rlt_div_l; lra. }
  lra.
Qed.

Definition tailw (N : nat) : R := / (5 * ((INR N - 1) * INR N * (INR N + 1) * (INR N + 2) * (INR N + 3))).

Lemma tail_step N : (2 <= N)%nat -> cw (S N) <= tailw N - tailw (S N).
Proof.
  intros HN. unfold cw, tailw. rewrite !S_INR. apply le_INR in HN. change (INR 2) with 2 in HN. set (x := INR N) in *. clearbody x.
  replace (/ (5 * ((x - 1) * x * (x + 1) * (x + 2) * (x + 3))) - / (5 * ((x + 1 - 1) * (x + 1) * (x + 1 + 1) * (x + 1 + 2) * (x + 1 + 3))))
    with (/ ((x - 1) * x * (x + 1) * (x + 2) * (x + 3) * (x + 4))).
  2: { field. repeat split; lra. }
  assert (P : 0 < (x - 1) * x * (x + 1) * (x + 2) * (x + 3) * (x + 4)) by (repeat apply Rmult_lt_0_compat; lra).
  apply Rinv_le_contravar. { exact P. }
  replace (((x + 1) * (x + 1 + 1) * (x + 1 + 2)) ^ 2) with ((x + 1) * (x + 2) * (x + 3) * ((x + 1) * (x + 2) * (x + 3))) by ring.
  replace ((x - 1) * x * (x + 1) * (x + 2) * (x + 3) * (x + 4)) with ((x + 1) * (x + 2) * (x + 3) * ((x - 1) * x * (x + 4))) by ring.
  apply Rmult_le_compat_l. { repeat apply Rmult_le_pos; lra. } nra.
Qed.

Lemma cw_pos n : (0 < n)%nat -> 0 < cw n.
Proof. intros H. apply lt_0_INR in H. unfold cw. apply Rinv_0_lt_compat. apply pow_lt. repeat apply Rmult_lt_0_compat; lra. Qed.

Lemma tail_pos N : (2 <= N)%nat -> 0 < tailw N.
Proof. intros HN. apply le_INR in HN. change (INR 2) with 2 in HN. unfold tailw. apply Rinv_0_lt_compat. repeat apply Rmult_lt_0_compat; lra. Qed.

Lemma T_difference v N k : Rabs v <= 1 -> (2 <= N)%nat ->
  Rabs (psum (Tt v) (N + k) - psum (Tt v) N) <= Rabs v ^ S N * (tailw N - tailw (N + k)).
Proof.
  intros Hv HN. induction k as [|k IH].
  { rewrite Nat.add_0_r, !Rminus_diag_eq by reflexivity. rewrite Rabs_R0. lra. }
  rewrite Nat.add_succ_r. cbn [psum].
  replace (psum (Tt v) (N + k) + Tt v (S (N + k)) - psum (Tt v) N) with ((psum (Tt v) (N + k) - psum (Tt v) N) + Tt v (S (N + k))) by ring.
  eapply Rle_trans; [apply Rabs_triang|].
  pose proof (tail_step (N + k) ltac:(lia)) as HT. pose proof (cw_pos (S (N + k)) ltac:(lia)) as HP.
  assert (Rabs (Tt v (S (N + k))) <= Rabs v ^ S N * (tailw (N + k) - tailw (S (N + k)))).
  { unfold Tt. rewrite Rabs_mult, <- RPow_abs, (Rabs_right (cw _)) by lra.
    apply Rmult_le_compat. { apply pow_le, Rabs_pos. } { lra. } 2: lra.
    replace (S (N + k)) with (S N + k)%nat by lia. rewrite pow_add.
    rewrite <- (Rmult_1_r (Rabs v ^ S N)) at 2. apply Rmult_le_compat_l. { apply pow_le, Rabs_pos. }
    rewrite <- (pow1 k). apply pow_incr. split; [apply Rabs_pos|exact Hv]. }
  lra.
Qed.

Lemma Err_difference v N M : Err v N = Err v M + 4 * v ^ 2 * (psum (Tt v) M - psum (Tt v) N).
Proof. unfold Err. ring. Qed.

Lemma Err_open v N : Rabs v < 1 -> (2 <= N)%nat -> Rabs (Err v N) <= 4 * v ^ 2 * (Rabs v ^ S N * tailw N).
Proof.
  intros Hv HN. pose proof (Rabs_pos v) as Hv0.
  assert (Hi : 0 < / (1 - Rabs v)) by (apply Rinv_0_lt_compat; lra).
  apply vanishing with (c := 12 * / (1 - Rabs v)) (v := Rabs v). { lra. } { lra. }
  exists N. intros M HM. rewrite (Err_difference v N M).
  eapply Rle_trans; [apply Rabs_triang|]. rewrite Rplus_comm. apply Rplus_le_compat.
  { rewrite Rabs_mult. rewrite (Rabs_right (4 * v ^ 2)) by nra. apply Rmult_le_compat_l. { nra. }
    replace M with (N + (M - N))%nat by lia. eapply Rle_trans. { apply T_difference; [lra|auto]. }
    apply Rmult_le_compat_l. { apply pow_le, Rabs_pos. }
    pose proof (tail_pos (N + (M - N)) ltac:(lia)). lra. }
  eapply Rle_trans; [apply Err_crude; auto|]. unfold Rdiv.
  assert (Rabs v ^ S M <= Rabs v ^ M). { cbn [pow]. pose proof (pow_le (Rabs v) M Hv0). nra. }
  nra.
Qed.

Lemma continuous_psumT N v : continuity_pt (fun t => psum (Tt t) N) v.
Proof.
  induction N as [|N IH]; cbn [psum]. { apply continuity_pt_const. now intros a b. }
  apply continuity_pt_plus. { exact IH. } unfold Tt.
  eapply continuity_of_derive. apply is_derive_monomial.
Qed.

Lemma continuous_Err N v : v < 1 -> continuity_pt (fun t => Err t N) v.
Proof.
  intros Hv. unfold Err. apply continuity_pt_minus.
  { apply continuity_pt_mult; [|apply Li2_cont]. eapply continuity_of_derive. auto_derive. { trivial. } reflexivity. }
  apply continuity_pt_plus.
  { apply continuity_pt_mult; [|apply continuous_psumT]. eapply continuity_of_derive. auto_derive. { trivial. } reflexivity. }
  eapply continuity_of_derive. auto_derive. { lra. } reflexivity.
Qed.

Lemma near_value (f : R -> R) x eps : continuity_pt f x -> 0 < eps ->
  exists d, 0 < d /\ forall y, Rabs (y - x) < d -> Rabs (f y - f x) < eps.
Proof.
  intros H He. destruct (H eps He) as (d & Hd & K). exists d. split; [exact Hd|]. intros y Hy.
  destruct (Req_dec y x) as [->|Hne]. { rewrite Rminus_diag_eq, Rabs_R0 by auto. exact He. }
  apply (K y). split; [split; [exact I|auto]|exact Hy].
Qed.

Lemma Err_bound v N : -1 <= v < 1 -> (2 <= N)%nat -> Rabs (Err v N) <= 4 * v ^ 2 * (Rabs v ^ S N * tailw N).
Proof.
  intros [[Hl|<-] Hr] HN. { apply Err_open; auto. apply Rabs_def1; lra. }
  replace (Rabs (-1)) with 1 by (rewrite Rabs_left; lra). rewrite pow1. replace ((-1) ^ 2) with 1 by ring.
  apply Rnot_lt_le. intros Hc. set (e := Rabs (Err (-1) N) - 4 * 1 * (1 * tailw N)). assert (He : 0 < e) by (unfold e; lra).
  destruct (near_value (fun t => Err t N) (-1) e (continuous_Err N (-1) ltac:(lra)) He) as (d & Hd & K).
  pose (y := -1 + Rmin (d / 2) (/ 2)). assert (Hm1 := Rmin_l (d / 2) (/ 2)). assert (Hm2 := Rmin_r (d / 2) (/ 2)).
  assert (Hm0 : 0 < Rmin (d / 2) (/ 2)) by (apply Rmin_glb_lt; lra).
  specialize (K y). unfold y in K. replace (-1 + Rmin (d / 2) (/ 2) - -1) with (Rmin (d / 2) (/ 2)) in K by ring.
  rewrite Rabs_right in K by lra. specialize (K ltac:(lra)). fold y in K.
  assert (Hy : Rabs y < 1) by (unfold y; apply Rabs_def1; lra).
  pose proof (Err_open y N Hy HN) as B. pose proof (tail_pos N HN) as TP.
  assert (Y2 : y ^ 2 <= 1) by (apply Rabs_def2 in Hy; nra).
  assert (YN : 0 <= Rabs y ^ S N <= 1).
  { split. { apply pow_le, Rabs_pos. } rewrite <- (pow1 (S N)). apply pow_incr. split; [apply Rabs_pos|lra]. }
  assert (B2 : 4 * y ^ 2 * (Rabs y ^ S N * tailw N) <= 4 * 1 * (1 * tailw N)).
  { apply Rmult_le_compat; try nra. }
  rewrite Rabs_minus_sym in K. pose proof (Rabs_triang_inv (Err (-1) N) (Err y N)). unfold e in K. lra.
Qed.

(** ** the value at 1 *)
Lemma Li2_1 : Li2 1 = zeta2.
Proof.
  apply cond_eq. intros e He.
  destruct (near_value Li2 1 (e / 8) (Li2_cont 1) ltac:(lra)) as (d1 & Hd1 & K1).
  destruct (near_value Li2 0 (e / 8) (Li2_cont 0) ltac:(lra)) as (d2 & Hd2 & K2).
  pose (z := Rmin (Rmin (d1 / 2) (d2 / 2)) (Rmin (/ 4) ((e / 8) * (e / 8)))).
  assert (Hz0 : 0 < z). { unfold z. repeat apply Rmin_glb_lt; nra. }
  assert (Hz1 : z <= d1 / 2). { unfold z. eapply Rle_trans; [apply Rmin_l|apply Rmin_l]. }
  assert (Hz2 : z <= d2 / 2). { unfold z. eapply Rle_trans; [apply Rmin_l|apply Rmin_r]. }
  assert (Hz3 : z <= / 4). { unfold z. eapply Rle_trans; [apply Rmin_r|apply Rmin_l]. }
  assert (Hz4 : z <= e / 8 * (e / 8)). { unfold z. eapply Rle_trans; [apply Rmin_r|apply Rmin_r]. }
  clearbody z.
  specialize (K1 (1 - z)). replace (1 - z - 1) with (- z) in K1 by ring. rewrite Rabs_Ropp, Rabs_right in K1 by lra. specialize (K1 ltac:(lra)).
  specialize (K2 z). rewrite Rminus_0_r, Rabs_right in K2 by lra. specialize (K2 ltac:(lra)). rewrite Li2_0, Rminus_0_r in K2.
  rewrite (reflection z) in K1 by lra.
  assert (HL : Rabs (ln z * ln (1 - z)) <= e / 2).
  { pose proof (log_series z 0 ltac:(rewrite Rabs_right; lra)) as HL. cbn [psum pow] in HL. rewrite Rplus_0_l, Rmult_1_r, (Rabs_right z) in HL by lra.
    assert (HQ : z / (1 - z) <= 2 * z). { apply Rle_div_l; nra. }
    pose proof (xlnx_small z ltac:(lra)) as HX.
    assert (HS : sqrt z <= e / 8). { rewrite <- (sqrt_square (e / 8)) by lra. apply sqrt_le_1_alt. exact Hz4. }
    rewrite Rabs_mult in *. rewrite (Rabs_right z) in HX by lra. pose proof (Rabs_pos (ln z)).
    apply Rle_trans with (Rabs (ln z) * (2 * z)). { apply Rmult_le_compat_l; lra. } lra. }
  apply Rabs_def2 in K1. apply Rabs_def2 in K2. apply Rabs_le_between in HL. apply Rabs_def1; lra.
Qed.
End Dilog.

(** ** the constant *)
Local Open Scope Q_scope.
Fixpoint half_pow (n : nat) : Q := match n with O => 1 | S n' => Qred (half_pow n' / 2) end.
Fixpoint LQ (n : nat) : Q := match n with O => 0 | S n' => Qred (LQ n' + half_pow n / inject_Z (Z.of_nat n)) end.
Fixpoint PQ (n : nat) : Q := match n with O => 0 | S n' => Qred (PQ n' + half_pow n / (inject_Z (Z.of_nat n) * inject_Z (Z.of_nat n))) end.
Local Open Scope R_scope.

Lemma Q2R_red q : Q2R (Qred q) = Q2R q. Proof. apply Qeq_eqR, Qred_correct. Qed.
Lemma Q2R_nat n : Q2R (inject_Z (Z.of_nat n)) = INR n.
Proof. unfold Q2R. simpl. rewrite INR_IZR_INZ. field. Qed.
Lemma nat_nz n : ~ (inject_Z (Z.of_nat (S n)) == 0)%Q.
Proof. unfold Qeq. simpl. lia. Qed.
Lemma half_pow_R n : Q2R (half_pow n) = (/ 2) ^ n.
Proof.
  induction n as [|n IH]. { unfold Q2R. simpl. field. }
  cbn [half_pow pow]. rewrite Q2R_red, Q2R_div, IH by (unfold Qeq; simpl; lia). replace (Q2R 2) with 2 by (unfold Q2R; simpl; field). field.
Qed.
Lemma LQ_R n : Q2R (LQ n) = psum (Lt (/ 2)) n.
Proof.
  induction n as [|n IH]. { unfold Q2R. simpl. field. }
  change (LQ (S n)) with (Qred (LQ n + half_pow (S n) / inject_Z (Z.of_nat (S n)))). cbn [psum].
  rewrite Q2R_red, Q2R_plus, IH, Q2R_div by apply nat_nz. now rewrite half_pow_R, Q2R_nat.
Qed.
Lemma PQ_R n : Q2R (PQ n) = psum (Pt (/ 2)) n.
Proof.
  induction n as [|n IH]. { unfold Q2R. simpl. field. }
  change (PQ (S n)) with (Qred (PQ n + half_pow (S n) / (inject_Z (Z.of_nat (S n)) * inject_Z (Z.of_nat (S n))))). cbn [psum].
  rewrite Q2R_red, Q2R_plus, IH, Q2R_div, Q2R_mult. 2: { intros K. apply Qmult_integral in K. destruct K as [K|K]; exact (nat_nz n K). }
  rewrite half_pow_R, Q2R_nat. unfold Pt. cbn [pow]. now rewrite Rmult_1_r.
Qed.

Lemma constant_check :
  (Qle_bool (-4 # 10 ^ 20) ((16449340668482264365 # 10 ^ 19) - (2 * PQ 75 + LQ 75 * LQ 75))
   && Qle_bool ((16449340668482264365 # 10 ^ 19) - (2 * PQ 75 + LQ 75 * LQ 75)) (4 # 10 ^ 20))%bool = true.
Proof. vm_compute. reflexivity. Qed.

Section Accuracy.
Context (Li2 : R -> R) (HLi : dilogarithm Li2).

Lemma constant_bound : Rabs (PISQ_6 - zeta2 Li2) <= / 10 ^ 19.
Proof.
  pose proof (li2_series Li2 HLi (/ 2) 75 ltac:(rewrite Rabs_right; lra)) as H1.
  pose proof (log_series (/ 2) 75 ltac:(rewrite Rabs_right; lra)) as H2.
  rewrite <- PQ_R in H1. rewrite <- LQ_R in H2.
  replace (1 - / 2) with (/ 2) in H2 by field. rewrite ln_half in H2.
  rewrite (Rabs_right (/ 2)) in H1, H2 by lra.
  assert (B : (/ 2) ^ 76 / (1 - / 2) <= / 10 ^ 21).
  { replace ((/ 2) ^ 76 / (1 - / 2)) with ((/ 2) ^ 75) by (change 76%nat with (S 75); cbn -[pow]; change ((/ 2) ^ S 75) with (/ 2 * (/ 2) ^ 75); field).
    rewrite pow_inv. apply Rinv_le_contravar. { apply pow_lt. lra. }
    rewrite !pow_IZR. apply IZR_le. vm_compute. discriminate. }
  pose proof constant_check as C. apply andb_prop in C. destruct C as [C1 C2].
  apply Qle_bool_iff, Qle_Rle in C1, C2.
  rewrite Q2R_minus, Q2R_plus, !Q2R_mult in C1, C2.
  set (p := Q2R (PQ 75)) in *. set (l := Q2R (LQ 75)) in *. clearbody p l.
  assert (E1 : Q2R (16449340668482264365 # 10 ^ 19) = PISQ_6).
  { unfold Q2R, PISQ_6. cbn [Qnum Qden]. unfold Rdiv. f_equal. f_equal. rewrite pow_IZR. apply f_equal. reflexivity. }
  assert (E2 : Q2R 2 = 2) by (unfold Q2R; simpl; field).
  assert (E3 : Q2R (4 # 10 ^ 20) = 4 * / 10 ^ 20).
  { unfold Q2R. cbn [Qnum Qden]. f_equal. f_equal. rewrite pow_IZR. apply f_equal. reflexivity. }
  assert (E4 : Q2R (-4 # 10 ^ 20) = - (4 * / 10 ^ 20)).
  { unfold Q2R. cbn [Qnum Qden]. replace (-4) with (- (4)) by ring. rewrite Ropp_mult_distr_l_reverse. f_equal. f_equal. f_equal. rewrite pow_IZR. apply f_equal. reflexivity. }
  rewrite E1, E2, E3 in C2. rewrite E1, E2, E4 in C1.
  unfold zeta2. pose proof ln_lt_2. assert (ln 2 < 1). { rewrite <- (ln_exp 1). apply ln_increasing. lra. pose proof (exp_ineq1 1). lra. }
  apply Rabs_le_between in H1, H2.
  assert (T : 0 < / 10 ^ 21 <= / 100). { split. apply Rinv_0_lt_compat, pow_lt; lra. apply Rinv_le_contravar. lra. simpl. lra. }
  replace (/ 10 ^ 19) with (100 * / 10 ^ 21) by (simpl; field). replace (/ 10 ^ 20) with (10 * / 10 ^ 21) in C1, C2 by (simpl; field).
  set (e := / 10 ^ 21) in *. clearbody e.
  assert (Q1 : - (3 * e) <= l * l - ln 2 ^ 2 <= 3 * e).
  { replace (l * l - ln 2 ^ 2) with ((l - ln 2) * (l + ln 2)) by ring.
    apply Rabs_le_between. rewrite Rabs_mult. rewrite (Rmult_comm 3).
    apply Rmult_le_compat; try apply Rabs_pos; apply Rabs_le; lra. }
  apply Rabs_le. lra.
Qed.

Definition last : nat := (MAX_ITER - 1)%nat.
Lemma last_value : INR last = 499. Proof. rewrite INR_IZR_INZ. apply f_equal. vm_compute. reflexivity. Qed.
Lemma last_big : (2 <= last)%nat. Proof. apply Nat.leb_le. vm_compute. reflexivity. Qed.
Lemma last_split : S last = (10 * 50)%nat. Proof. vm_compute. reflexivity. Qed.

Lemma series0_eq z : z <> 0 -> cspence_series0 z = PISQ_6 - psum (Pt z) last + ln z * psum (Lt z) last.
Proof.
  intros Hz. unfold cspence_series0, fori_loop. fold last. cbv zeta. destruct (Req_EM_T z 0) as [|_]; [contradiction|].
  rewrite loop0. reflexivity.
Qed.

Lemma series1_eq z : z <> 1 -> cspence_series1 z =
  (4 * (1 - z) ^ 2 * psum (Tt (1 - z)) last + (4 * (1 - z) + 575 / 100 * (1 - z) ^ 2 + 3 * (1 - (1 - z) ^ 2) * ln (1 - (1 - z))))
  / (1 + 4 * (1 - z) + (1 - z) ^ 2).
Proof.
  intros Hz. unfold cspence_series1, fori_loop. fold last. cbv zeta. destruct (Req_EM_T z 1) as [|_]; [contradiction|].
  rewrite loop1. cbn [res1]. unfold Rdiv at 1 3. f_equal. ring.
Qed.

Lemma half_power v : Rabs v <= / 2 -> Rabs v ^ S last <= / 10 ^ 150.
Proof.
  intros Hv. rewrite last_split, pow_mult. change 150%nat with (3 * 50)%nat. rewrite (pow_mult 10 3 50), <- pow_inv.
  apply pow_incr. split. { apply pow_le, Rabs_pos. }
  apply Rle_trans with ((/ 2) ^ 10). { apply pow_incr. split; [apply Rabs_pos|auto]. } simpl. lra.
Qed.

Lemma tail_last : 4 * tailw last <= 26 / 10 ^ 15.
Proof. unfold tailw. rewrite last_value. simpl. lra. Qed.

Lemma tiny : 0 < / 10 ^ 150 <= / 10 ^ 22.
Proof.
  split. { apply Rinv_0_lt_compat, pow_lt; lra. } apply Rinv_le_contravar. { apply pow_lt; lra. } apply Rle_pow. lra.
  apply Nat.leb_le. reflexivity.
Qed.

Lemma near_zero z : 0 <= z < / 2 -> Rabs (cspence_series0 z - Li2 (1 - z)) <= 2 / 10 ^ 19.
Proof.
  intros Hz. pose proof constant_bound as HC. apply Rabs_le_between in HC.
  assert (0 < / 10 ^ 19) by (apply Rinv_0_lt_compat, pow_lt; lra).
  destruct (Req_dec z 0) as [->|Hz0].
  { rewrite Rminus_0_r, (Li2_1 Li2 HLi). unfold cspence_series0. cbv zeta. destruct (Req_EM_T 0 0); [|contradiction].
    apply Rabs_le. unfold Rdiv. lra. }
  rewrite series0_eq by auto. rewrite (reflection Li2 HLi) by lra.
  assert (Hzz : Rabs z = z) by (apply Rabs_right; lra).
  pose proof (li2_series Li2 HLi z last ltac:(lra)) as H1. pose proof (log_series z last ltac:(lra)) as H2.
  pose proof (half_power z ltac:(lra)) as HP. rewrite Hzz in *.
  assert (Hlnz : Rabs (ln z) * z <= 2).
  { pose proof (xlnx_small z ltac:(lra)) as HX. rewrite Rabs_mult, Hzz in HX. assert (sqrt z <= 1). { rewrite <- sqrt_1. apply sqrt_le_1_alt. lra. } lra. }
  assert (HB : z ^ S last / (1 - z) <= 2 * / 10 ^ 22).
  { apply Rle_div_l. lra. pose proof tiny. nra. }
  assert (HP2 : z ^ last <= / 10 ^ 22).
  { replace last with (S (last - 1)) by reflexivity. change (z ^ S (last - 1)) with (z * z ^ (last - 1)).
    apply Rle_trans with ((/ 2) ^ 100).
    { change (S (last - 1)) with last. change (z * z ^ (last - 1)) with (z ^ last).
      replace last with (100 + 399)%nat by (vm_compute; reflexivity). rewrite pow_add. rewrite <- (Rmult_1_r ((/ 2) ^ 100)).
      apply Rmult_le_compat. { apply pow_le; lra. } { apply pow_le; lra. } { apply pow_incr; lra. } { rewrite <- (pow1 399). apply pow_incr. lra. } }
    rewrite pow_inv. apply Rinv_le_contravar. { apply pow_lt. lra. } rewrite !pow_IZR. apply IZR_le. vm_compute. discriminate. }
  assert (HM : Rabs (ln z * (psum (Lt z) last + ln (1 - z))) <= 4 * / 10 ^ 22).
  { rewrite Rabs_mult. eapply Rle_trans. { apply Rmult_le_compat_l. apply Rabs_pos. exact H2. }
    change (z ^ S last) with (z * z ^ last).
    replace (Rabs (ln z) * (z * z ^ last / (1 - z))) with (Rabs (ln z) * z * (z ^ last * / (1 - z))) by (unfold Rdiv; ring).
    pose proof (Rinv_0_lt_compat (1 - z) ltac:(lra)). pose proof (pow_le z last ltac:(lra)).
    assert (/ (1 - z) <= 2). { rewrite <- (Rinv_inv 2). apply Rinv_le_contravar; lra. }
    pose proof (Rabs_pos (ln z)).
    replace (4 * / 10 ^ 22) with (2 * (/ 10 ^ 22 * 2)) by ring.
    apply Rmult_le_compat. { nra. } { nra. } { exact Hlnz. } apply Rmult_le_compat; lra. }
  apply Rabs_le_between in H1, HM.
  replace (/ 10 ^ 19) with (1000 * / 10 ^ 22) in * by (simpl; field).
  assert (0 < / 10 ^ 22) by (apply Rinv_0_lt_compat, pow_lt; lra).
  replace (2 / 10 ^ 19) with (2000 * / 10 ^ 22) by (simpl; field).
  set (e := / 10 ^ 22) in *. clearbody e. apply Rabs_le. lra.
Qed.

Lemma near_one z : / 2 <= z <= 2 ->
  Rabs (cspence_series1 z - Li2 (1 - z)) * Rabs (1 + 4 * (1 - z) + (1 - z) ^ 2) <= 26 / 10 ^ 15 * (1 - z) ^ 2 * Rabs (1 - z) ^ S last
  \/ 1 + 4 * (1 - z) + (1 - z) ^ 2 = 0.
Proof.
  intros Hz. destruct (Req_dec (1 + 4 * (1 - z) + (1 - z) ^ 2) 0) as [H0|H0]; [now right|left].
  destruct (Req_dec z 1) as [->|H1].
  { replace (1 - 1) with 0 by ring. rewrite (Li2_0 Li2 HLi). unfold cspence_series1. cbv zeta. destruct (Req_EM_T 1 1); [|contradiction].
    rewrite Rminus_0_r, Rabs_R0. replace (0 ^ 2) with 0 by ring. rewrite Rmult_0_r, !Rmult_0_l. lra. }
  rewrite series1_eq by auto. set (v := 1 - z) in *.
  rewrite <- Rabs_mult.
  match goal with |- Rabs ?e <= _ => replace e with (- Err Li2 v last) by (unfold Err; field; exact H0) end.
  rewrite Rabs_Ropp. eapply Rle_trans. { apply Err_bound; [exact HLi|unfold v; lra|exact last_big]. }
  replace (4 * v ^ 2 * (Rabs v ^ S last * tailw last)) with (4 * tailw last * (v ^ 2 * Rabs v ^ S last)) by ring.
  replace (26 / 10 ^ 15 * v ^ 2 * Rabs v ^ S last) with (26 / 10 ^ 15 * (v ^ 2 * Rabs v ^ S last)) by ring.
  apply Rmult_le_compat_r. { apply Rmult_le_pos. nra. apply pow_le, Rabs_pos. }
  exact tail_last.
Qed.

(** away from the removable singularity of the quotient *)
Lemma den_factor z : 1 + 4 * (1 - z) + (1 - z) ^ 2 = (z - (3 - sqrt 3)) * (z - (3 + sqrt 3)).
Proof. pose proof (sqrt_sqrt 3 ltac:(lra)). nra. Qed.

Lemma sqrt3 : 1.7 < sqrt 3 < 1.75.
Proof.
  split.
  { rewrite <- (sqrt_square 1.7) by lra. apply sqrt_lt_1_alt. lra. }
  rewrite <- (sqrt_square 1.75) by lra. apply sqrt_lt_1_alt. lra.
Qed.

Lemma away z : / 2 <= z <= 2 -> / (1000 * 10 ^ 100) <= Rabs (1 + 4 * (1 - z) + (1 - z) ^ 2) ->
  Rabs (cspence_series1 z - Li2 (1 - z)) <= 35 / 10 ^ 15.
Proof.
  intros Hz Hd.
  assert (HD : 0 < 10 ^ 100) by (apply pow_lt; lra).
  assert (HDi : 0 < / (1000 * 10 ^ 100)) by (apply Rinv_0_lt_compat; lra).
  assert (He : 0 < / 10 ^ 15) by (apply Rinv_0_lt_compat, pow_lt; lra).
  destruct (near_one z Hz) as [H|H]. 2: { rewrite H, Rabs_R0 in Hd. lra. }
  set (v := 1 - z) in *. assert (Hv : -1 <= v <= / 2) by (unfold v; lra).
  set (x := Rabs (cspence_series1 z - Li2 v)) in *. assert (Hx : 0 <= x) by apply Rabs_pos.
  set (d := Rabs (1 + 4 * v + v ^ 2)) in *.
  unfold Rdiv in *. set (e := / 10 ^ 15) in *. clearbody e.
  destruct (Rle_dec (- / 2) v) as [Hs|Hs].
  { assert (Hp := half_power v ltac:(apply Rabs_le; lra)).
    assert (E : / 10 ^ 150 <= / (1000 * 10 ^ 100)).
    { apply Rinv_le_contravar. { lra. } change 150%nat with (50 + 100)%nat. rewrite pow_add. apply Rmult_le_compat_r. { lra. }
      apply Rle_trans with (10 ^ 3). { lra. } apply Rle_pow. lra. apply Nat.leb_le. reflexivity. }
    assert (V2 : 0 <= v ^ 2 <= / 4) by (split; nra).
    assert (P0 : 0 <= Rabs v ^ S last) by (apply pow_le, Rabs_pos).
    apply Rmult_le_reg_r with d. { lra. }
    apply Rle_trans with (26 * e * v ^ 2 * Rabs v ^ S last). { exact H. }
    apply Rmult_le_compat; try lra; nra. }
  assert (Dv : 3 / 4 <= d). { unfold d. rewrite Rabs_left; nra. }
  assert (Pv : 0 <= Rabs v ^ S last <= 1).
  { split. { apply pow_le, Rabs_pos. } rewrite <- (pow1 (S last)). apply pow_incr. split; [apply Rabs_pos|apply Rabs_le; lra]. }
  assert (V2 : 0 <= v ^ 2 <= 1) by (split; nra).
  assert (H' : x * d <= 26 * e * 1 * 1).
  { eapply Rle_trans; [exact H|]. apply Rmult_le_compat; try lra. { nra. } apply Rmult_le_compat; lra. }
  nra.
Qed.

Lemma distance_den z : / 2 <= z <= 2 -> / 10 ^ 100 <= Rabs (z - (3 - sqrt 3)) ->
  / (1000 * 10 ^ 100) <= Rabs (1 + 4 * (1 - z) + (1 - z) ^ 2).
Proof.
  intros Hz H. rewrite den_factor, Rabs_mult. pose proof sqrt3.
  assert (HD : 0 < / 10 ^ 100) by (apply Rinv_0_lt_compat, pow_lt; lra).
  rewrite Rinv_mult. rewrite (Rabs_left (z - (3 + sqrt 3))) by lra. nra.
Qed.

Lemma far z : 2 < z -> / 10 ^ 100 <= Rabs (z - (3 + sqrt 3)) ->
  Rabs (- cspence_series1 (z / (z - 1)) - PISQ_6 - / 2 * ln (z - 1) ^ 2 - Li2 (1 - z)) <= 4 / 10 ^ 14.
Proof.
  intros Hz H. pose proof sqrt3 as H3. pose proof (sqrt_sqrt 3 ltac:(lra)) as Hq.
  assert (HD : 0 < / 10 ^ 100) by (apply Rinv_0_lt_compat, pow_lt; lra).
  set (y := z / (z - 1)).
  assert (Hy : 1 < y < 2).
  { unfold y. replace (z / (z - 1)) with (1 + / (z - 1)) by (field; lra).
    pose proof (Rinv_0_lt_compat (z - 1) ltac:(lra)). assert (/ (z - 1) < 1). { rewrite <- Rinv_1. apply Rinv_lt_contravar; lra. } lra. }
  assert (Hden : / (1000 * 10 ^ 100) <= Rabs (1 + 4 * (1 - y) + (1 - y) ^ 2)).
  { replace (1 + 4 * (1 - y) + (1 - y) ^ 2) with ((z ^ 2 - 6 * z + 6) * (/ (z - 1) * / (z - 1))) by (unfold y; field; lra).
    replace (z ^ 2 - 6 * z + 6) with ((z - (3 + sqrt 3)) * (z - (3 - sqrt 3))) by nra.
    pose proof (Rinv_0_lt_compat (z - 1) ltac:(lra)) as Hi.
    rewrite !Rabs_mult. rewrite (Rabs_right (z - (3 - sqrt 3))), (Rabs_right (/ (z - 1))) by lra.
    rewrite Rinv_mult.
    destruct (Rle_dec z 10) as [Hs|Hs].
    { assert (/ 9 <= / (z - 1)) by (apply Rinv_le_contravar; lra).
      apply Rle_trans with (/ 10 ^ 100 * / 2 * (/ 9 * / 9)). { lra. }
      apply Rmult_le_compat; try nra. }
    assert (A1 : / 2 * (z - 1) <= Rabs (z - (3 + sqrt 3))) by (rewrite Rabs_right; lra).
    assert (A2 : / 2 * (z - 1) <= z - (3 - sqrt 3)) by lra.
    assert (A3 : / 10 ^ 100 <= 1). { rewrite <- Rinv_1. apply Rinv_le_contravar. lra. apply pow_R1_Rle. lra. }
    apply Rle_trans with (/ 2 * (z - 1) * (/ 2 * (z - 1)) * (/ (z - 1) * / (z - 1))).
    { replace (/ 2 * (z - 1) * (/ 2 * (z - 1)) * (/ (z - 1) * / (z - 1))) with (/ 4) by (field; lra). lra. }
    apply Rmult_le_compat_r. { nra. } apply Rmult_le_compat; lra. }
  pose proof (away y ltac:(lra) Hden) as HA. pose proof constant_bound as HC.
  rewrite (inversion Li2 HLi z Hz). fold y.
  apply Rabs_le_between in HA, HC.
  replace (/ 10 ^ 19) with (/ 10 ^ 15 * / 10000) in HC by (simpl; field).
  replace (4 / 10 ^ 14) with (40 * / 10 ^ 15) by (simpl; field). unfold Rdiv in *.
  assert (0 < / 10 ^ 15) by (apply Rinv_0_lt_compat, pow_lt; lra). set (e := / 10 ^ 15) in *. clearbody e.
  apply Rabs_le. lra.
Qed.

(** ** the quotient is unbounded near the zero of its denominator *)
Lemma cw_decreasing N k : (0 < N)%nat -> cw (N + k) <= cw N.
Proof.
  intros HN. apply lt_0_INR in HN. pose proof (pos_INR k). unfold cw. apply Rinv_le_contravar.
  { apply pow_lt. repeat apply Rmult_lt_0_compat; lra. }
  rewrite plus_INR. apply pow_incr. split. { repeat apply Rmult_le_pos; lra. }
  repeat (apply Rmult_le_compat; try lra; try nra).
Qed.

Lemma T_difference_geometric v N k : Rabs v < 1 ->
  Rabs (psum (Tt v) (N + k) - psum (Tt v) N) <= cw (S N) * (Rabs v ^ S N - Rabs v ^ S (N + k)) / (1 - Rabs v).
Proof.
  intros Hv. pose proof (Rabs_pos v). induction k as [|k IH].
  { rewrite Nat.add_0_r, !Rminus_diag_eq by reflexivity. rewrite Rabs_R0. unfold Rdiv. rewrite Rmult_0_r, Rmult_0_l. lra. }
  rewrite Nat.add_succ_r. cbn [psum].
  replace (psum (Tt v) (N + k) + Tt v (S (N + k)) - psum (Tt v) N) with ((psum (Tt v) (N + k) - psum (Tt v) N) + Tt v (S (N + k))) by ring.
  eapply Rle_trans; [apply Rabs_triang|].
  pose proof (cw_decreasing (S N) k ltac:(lia)) as HC. pose proof (cw_pos (S (N + k)) ltac:(lia)) as HP.
  assert (B : Rabs (Tt v (S (N + k))) <= cw (S N) * Rabs v ^ S (N + k)).
  { unfold Tt. rewrite Rabs_mult, <- RPow_abs, (Rabs_right (cw _)) by lra. rewrite Rmult_comm.
    apply Rmult_le_compat_r. { apply pow_le, Rabs_pos. } exact HC. }
  replace (cw (S N) * (Rabs v ^ S N - Rabs v ^ S (S (N + k))) / (1 - Rabs v))
    with (cw (S N) * (Rabs v ^ S N - Rabs v ^ S (N + k)) / (1 - Rabs v) + cw (S N) * Rabs v ^ S (N + k)).
  2: { change (Rabs v ^ S (S (N + k))) with (Rabs v * Rabs v ^ S (N + k)). field. lra. }
  lra.
Qed.

Lemma Err_geometric v N : Rabs v < 1 -> Rabs (Err Li2 v N) <= 4 * v ^ 2 * (cw (S N) * Rabs v ^ S N / (1 - Rabs v)).
Proof.
  intros Hv. pose proof (Rabs_pos v) as Hv0.
  assert (Hi : 0 < / (1 - Rabs v)) by (apply Rinv_0_lt_compat; lra).
  apply vanishing with (c := 12 * / (1 - Rabs v)) (v := Rabs v). { lra. } { lra. }
  exists N. intros M HM. rewrite (Err_difference Li2 v N M).
  eapply Rle_trans; [apply Rabs_triang|]. rewrite Rplus_comm. apply Rplus_le_compat.
  { rewrite Rabs_mult. rewrite (Rabs_right (4 * v ^ 2)) by nra. apply Rmult_le_compat_l. { nra. }
    replace M with (N + (M - N))%nat by lia. eapply Rle_trans. { now apply T_difference_geometric. }
    unfold Rdiv. apply Rmult_le_compat_r. { lra. } apply Rmult_le_compat_l. { left. apply cw_pos. lia. }
    pose proof (pow_le (Rabs v) (S (N + (M - N))) Hv0). lra. }
  eapply Rle_trans; [apply Err_crude; auto|]. unfold Rdiv.
  assert (Rabs v ^ S M <= Rabs v ^ M). { cbn [pow]. pose proof (pow_le (Rabs v) M Hv0). nra. }
  nra.
Qed.

Lemma Err_nonzero v N : v <> 0 -> Rabs v < / 2 -> Err Li2 v N <> 0.
Proof.
  intros H0 Hv E. rewrite (Err_difference Li2 v N (S N)) in E. cbn [psum] in E.
  pose proof (Err_geometric v (S N) ltac:(lra)) as B.
  assert (Hp : 0 < Rabs v) by now apply Rabs_pos_lt.
  assert (E2 : Rabs (Err Li2 v (S N)) = 4 * v ^ 2 * (Rabs v ^ S N * cw (S N))).
  { replace (Err Li2 v (S N)) with (- (4 * v ^ 2 * Tt v (S N))) by lra. rewrite Rabs_Ropp, Rabs_mult. rewrite (Rabs_right (4 * v ^ 2)) by nra.
    f_equal. unfold Tt. rewrite Rabs_mult, <- RPow_abs. f_equal. apply Rabs_right. left. apply cw_pos. lia. }
  rewrite E2 in B. apply Rmult_le_reg_l in B. 2: { assert (0 < v ^ 2) by (rewrite <- Rsqr_pow2; now apply Rsqr_pos_lt). lra. }
  pose proof (cw_pos (S N) ltac:(lia)) as C1. pose proof (cw_decreasing (S N) 1 ltac:(lia)) as C2. rewrite Nat.add_1_r in C2.
  pose proof (pow_lt (Rabs v) (S N) Hp) as P. change (Rabs v ^ S (S N)) with (Rabs v * Rabs v ^ S N) in B.
  set (q := Rabs v ^ S N) in *. set (c := cw (S N)) in *.
  assert (B2 : cw (S (S N)) * (Rabs v * q) / (1 - Rabs v) < c * q).
  { apply Rlt_div_l. { lra. } apply Rle_lt_trans with (c * (Rabs v * q)). { apply Rmult_le_compat_r; nra. }
    assert (0 < c * q) by nra. nra. }
  lra.
Qed.

Lemma unbounded M : exists z, 1 < z < 3 / 2 /\ M < Rabs (cspence_series1 z).
Proof.
  pose proof sqrt3 as H3. set (z0 := 3 - sqrt 3). assert (Hz0 : 1.25 < z0 < 1.3) by (unfold z0; lra).
  pose (num := fun z => (1 + 4 * (1 - z) + (1 - z) ^ 2) * Li2 (1 - z) - Err Li2 (1 - z) last).
  assert (E0 : num z0 <> 0).
  { unfold num. rewrite den_factor. fold z0. replace (z0 - z0) with 0 by ring. rewrite !Rmult_0_l, Rminus_0_l. intros K.
    apply (Err_nonzero (1 - z0) last). { lra. } { rewrite Rabs_left; lra. } lra. }
  assert (C : continuity_pt num z0).
  { unfold num. apply continuity_pt_minus.
    { apply continuity_pt_mult. { eapply continuity_of_derive. auto_derive. trivial. reflexivity. }
      apply (continuity_pt_comp (fun t => 1 - t) Li2). { eapply continuity_of_derive. auto_derive. trivial. reflexivity. } apply (Li2_cont Li2 HLi). }
    apply (continuity_pt_comp (fun t => 1 - t) (fun t => Err Li2 t last)). { eapply continuity_of_derive. auto_derive. trivial. reflexivity. }
    apply continuous_Err. exact HLi. lra. }
  pose proof (Rabs_pos_lt _ E0) as Hn. set (a := Rabs (num z0)) in *.
  destruct (near_value num z0 (a / 2) C ltac:(lra)) as (d & Hd & K).
  pose (h := Rmin (Rmin (d / 2) (/ 10)) (a / (20 * (Rabs M + 1)))).
  pose proof (Rabs_pos M) as HM. pose proof (Rle_abs M) as HM'.
  assert (Hh0 : 0 < h). { unfold h. repeat apply Rmin_glb_lt; try lra. apply Rdiv_lt_0_compat; lra. }
  assert (Hh1 : h <= d / 2). { unfold h. eapply Rle_trans; [apply Rmin_l|apply Rmin_l]. }
  assert (Hh2 : h <= / 10). { unfold h. eapply Rle_trans; [apply Rmin_l|apply Rmin_r]. }
  assert (Hh3 : h <= a / (20 * (Rabs M + 1))). { unfold h. apply Rmin_r. }
  clearbody h. exists (z0 + h). split; [lra|].
  specialize (K (z0 + h)). replace (z0 + h - z0) with h in K by ring. rewrite Rabs_right in K by lra. specialize (K ltac:(lra)).
  assert (Ha : a / 2 < Rabs (num (z0 + h))).
  { rewrite Rabs_minus_sym in K. pose proof (Rabs_triang_inv (num z0) (num (z0 + h))). fold a in H. lra. }
  rewrite series1_eq by lra.
  set (z := z0 + h) in *.
  replace (4 * (1 - z) ^ 2 * psum (Tt (1 - z)) last + (4 * (1 - z) + 575 / 100 * (1 - z) ^ 2 + 3 * (1 - (1 - z) ^ 2) * ln (1 - (1 - z))))
    with (num z) by (unfold num, Err; ring).
  rewrite den_factor. fold z0. replace (z - z0) with h by (unfold z; ring).
  assert (Hw : - 5 < z - (3 + sqrt 3) < 0) by (unfold z; lra).
  unfold Rdiv. rewrite Rabs_mult, Rabs_inv, Rabs_mult, (Rabs_right h), (Rabs_left (z - _)) by lra.
  apply Rlt_div_r. { apply Rmult_lt_0_compat; lra. }
  apply Rle_lt_trans with ((Rabs M + 1) * (h * 5)).
  { apply Rle_trans with ((Rabs M + 1) * (h * - (z - (3 + sqrt 3)))). { apply Rmult_le_compat_r; nra. }
    apply Rmult_le_compat_l. lra. apply Rmult_le_compat_l; lra. }
  assert (h * (20 * (Rabs M + 1)) <= a). { apply Rle_div_r in Hh3; lra. }
  lra.
Qed.
End Accuracy.
