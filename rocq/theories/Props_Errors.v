(** Properties C74, C75: measurement-error models. *)
From Coq Require Import Reals List Bool Arith Lra Lia ZArith.
From Verif Require Import Model_X Spec_X Proofs_X Model_Key Model_Joint Model_Constraints Model_Transform Proofs_Transform Model_Errors Spec_Errors.
Import ListNotations.
Open Scope R_scope.

(** ** C74 *)
Lemma masses_from_fin Mc eta : 0 < eta <= 1/4 ->
  let d := sqrt (1 - 4 * eta) in let F := 1/2 * Mc * Rpower eta (-(3/5)) in
  masses_from (Fin Mc) (Fin eta) = (Fin (F * (1 + d)), Fin (F * (1 - d))).
Proof.
  intros H d F. unfold masses_from. cbn [xmul xopp xadd xsub]. unfold xsub. cbn [xopp xadd].
  rewrite xpow_fin by lra. cbn [xleb].
  destruct (Rle_dec 0 (1 + - (4 * eta))); [|lra]. cbn [xsqrt]. destruct (Rlt_dec (1 + - (4 * eta)) 0); [lra|].
  cbn [xmul xadd xopp]. reflexivity.
Qed.
Lemma root_bounds eta : 0 < eta <= 1/4 -> 0 <= sqrt (1 - 4 * eta) < 1.
Proof.
  intros H. split; [apply sqrt_pos|]. rewrite <- sqrt_1 at 2. apply sqrt_lt_1; lra.
Qed.
(** the conversion back to masses inverts chirp mass and symmetric mass ratio, with the larger mass first *)
Theorem C74_back_to_masses : forall Mc eta, 0 < Mc -> 0 < eta <= 1/4 ->
  exists m1 m2, masses_from (Fin Mc) (Fin eta) = (Fin m1, Fin m2) /\ m1 >= m2 /\ m2 > 0
    /\ chirp_mass (Fin m1) (Fin m2) = Fin Mc /\ symmetric_mass_ratio (Fin m1) (Fin m2) = Fin eta.
Proof.
  intros Mc eta HM He. rewrite masses_from_fin by auto. pose proof (root_bounds eta He) as Hd.
  assert (Dd : sqrt (1 - 4 * eta) * sqrt (1 - 4 * eta) = 1 - 4 * eta) by (apply sqrt_sqrt; lra).
  set (d := sqrt (1 - 4 * eta)) in *. set (F := 1/2 * Mc * Rpower eta (-(3/5))).
  assert (PF : 0 < F). { unfold F. apply Rmult_lt_0_compat; [lra|]. unfold Rpower. apply exp_pos. }
  assert (LF : ln F = - ln 2 + ln Mc - 3/5 * ln eta).
    { unfold F. unfold Rpower. rewrite ln_mult, ln_mult by (try apply exp_pos; lra). rewrite ln_exp.
      replace (1/2) with (/ 2) by field. rewrite ln_Rinv by lra. field. }
  exists (F * (1 + d)), (F * (1 - d)). split; [reflexivity|]. clearbody F.
  assert (P1 : 0 < F * (1 + d)) by (apply Rmult_lt_0_compat; lra).
  assert (P2 : 0 < F * (1 - d)) by (apply Rmult_lt_0_compat; lra).
  split; [nra|]. split; [lra|]. split.
  - rewrite chirp_mass_fin by auto. f_equal.
    replace (F * (1 + d) * (F * (1 - d))) with (F * F * (4 * eta)) by nra.
    replace (F * (1 + d) + F * (1 - d)) with (2 * F) by ring.
    rewrite <- (exp_ln Mc) by auto. f_equal.
    rewrite !ln_mult by (try apply Rmult_lt_0_compat; lra).
    rewrite LF. replace 4 with (2 * 2) by ring. rewrite ln_mult by lra. field.
  - rewrite eta_fin by lra. f_equal.
    replace (F * (1 + d) * (F * (1 - d))) with (F * F * (4 * eta)) by nra. field. lra.
Qed.
Print Assumptions C74_back_to_masses.
(** a perturbed mass ratio above one quarter, or one that is not positive, makes a mass undefined, so
    that the sample is dropped *)
Theorem C74_undefined : forall Mc eta, Mc <> 0 -> (eta > 1/4 \/ eta <= 0) ->
  fst (masses_from (Fin Mc) (Fin eta)) = NaN \/ snd (masses_from (Fin Mc) (Fin eta)) = NaN.
Proof.
  intros Mc eta HM H. unfold masses_from. cbn [xmul xsub xopp xadd]. unfold xsub. cbn [xopp xadd xleb].
  destruct H as [H|H].
  - left. destruct (Rle_dec 0 (1 + - (4 * eta))); [lra|]. cbn [xadd fst].
    destruct (xpow (Fin eta) (-(3/5))); cbn; try reflexivity.
    all: unfold xinf_times; repeat match goal with |- context [Rlt_dec ?a ?b] => destruct (Rlt_dec a b) end; reflexivity.
  - destruct (Req_dec eta 0) as [->|Hn].
    + right. rewrite Rmult_0_r. destruct (Rle_dec 0 (1 + - 0)); [|lra]. cbn [xsqrt].
      destruct (Rlt_dec (1 + - 0) 0); [lra|]. replace (1 + - 0) with 1 by ring. rewrite sqrt_1.
      cbn [xpow]. destruct (Rlt_dec 0 0); [lra|]. destruct (Req_EM_T 0 0); [|lra]. destruct (Rlt_dec 0 (-(3/5))); [lra|].
      cbn [snd xsub xopp xadd xmul]. replace (1 + - (1)) with 0 by ring. unfold xinf_times.
      repeat match goal with |- context [Rlt_dec ?a ?b] => destruct (Rlt_dec a b); try lra end; cbn; unfold xinf_times;
      repeat match goal with |- context [Rlt_dec ?a ?b] => destruct (Rlt_dec a b); try lra end; reflexivity.
    + left. cbn [xpow]. destruct (Rlt_dec 0 eta); [lra|]. destruct (Req_EM_T eta 0); [lra|]. reflexivity.
Qed.
Print Assumptions C74_undefined.
(** The whole error model: with a signal-to-noise ratio rho, the perturbed chirp mass and symmetric mass
    ratio are the documented ones; whenever they are admissible the returned masses have exactly those values. *)
Theorem C74_banana : forall msun m1 m2 u, 0 < msun -> 0 < m1 -> 0 < m2 -> 0 < u <= 1 ->
  exists Mc_true eta_true,
    chirp_mass (Fin m1) (Fin m2) = Fin Mc_true /\ symmetric_mass_ratio (Fin m1) (Fin m2) = Fin eta_true
    /\ 0 < chirp_width msun Mc_true <= 7/100
    /\ forall r0 r0p r rp,
       let rho := 9 * Rpower u (-(1/3)) in
       let Mc := Mc_true * (1 + chirp_width msun Mc_true * (12 / rho) * (r0 + r)) in
       let eta := eta_true * (1 + 3/100 * (12 / rho) * (r0p + rp)) in
       9 <= rho /\ banana msun (Fin m1) (Fin m2) r0 r0p r rp u = masses_from (Fin Mc) (Fin eta)
       /\ (0 < Mc -> 0 < eta <= 1/4 -> exists a b, banana msun (Fin m1) (Fin m2) r0 r0p r rp u = (Fin a, Fin b)
            /\ a >= b /\ b > 0 /\ chirp_mass (Fin a) (Fin b) = Fin Mc /\ symmetric_mass_ratio (Fin a) (Fin b) = Fin eta).
Proof.
  intros msun m1 m2 u Hs H1 H2 Hu.
  set (Mt := exp (3/5 * ln (m1 * m2) - 1/5 * ln (m1 + m2))). set (et := m1 * m2 / ((m1 + m2) * (m1 + m2))).
  assert (PM : 0 < Mt) by apply exp_pos.
  assert (EM : chirp_mass (Fin m1) (Fin m2) = Fin Mt) by now apply chirp_mass_fin.
  assert (EE : symmetric_mass_ratio (Fin m1) (Fin m2) = Fin et) by (apply eta_fin; lra).
  assert (ER : snr u = Fin (9 * Rpower u (-(1/3)))). { unfold snr. rewrite xpow_fin by lra. reflexivity. }
  assert (PR : 9 <= 9 * Rpower u (-(1/3))).
  { assert (1 <= Rpower u (-(1/3))).
    { unfold Rpower. rewrite <- exp_0 at 1. destruct (Req_dec u 1) as [->|N]; [rewrite ln_1; apply Req_le; f_equal; ring|].
      left. apply exp_increasing. assert (ln u < 0) by (rewrite <- ln_1; apply ln_increasing; lra). nra. }
    lra. }
  assert (PV : 0 < PI * (Mt * (20 * msun))) by (pose proof PI_RGT_0; apply Rmult_lt_0_compat; [|apply Rmult_lt_0_compat]; lra).
  set (v := Rmin (velocity_20Hz msun Mt) (1/5)).
  assert (Pv : 0 < v) by (unfold v; apply Rmin_pos; [unfold velocity_20Hz, Rpower; apply exp_pos|lra]).
  assert (Xmin : forall a b, xminimum2 (Fin a) (Fin b) = Fin (Rmin a b)).
  { intros a b. unfold xminimum2, xmax. cbn. unfold Rmin. destruct (Rle_dec (- a) (- b)), (Rle_dec a b); cbn; rewrite ?Ropp_involutive; try reflexivity; try lra.
    f_equal. lra. }
  assert (Pb : 0 < chirp_width msun Mt <= 7/100).
  { split; [|apply Rmin_l]. apply Rmin_pos; [lra|]. apply Rmult_lt_0_compat; [lra|]. apply pow_lt. fold v. lra. }
  assert (EB : forall rho, 9 <= rho -> chirp_error_scale msun (Fin Mt) (Fin rho) = Fin (chirp_width msun Mt * (12 / rho))).
  { intros rho Hr. unfold chirp_error_scale. cbn [xmul]. rewrite xpow_fin by auto. rewrite Xmin. fold (velocity_20Hz msun Mt). fold v.
    cbn [xdiv]. destruct (Req_EM_T (1/5) 0); [lra|]. destruct (Req_EM_T 12 0); [lra|]. cbn [xmul xdiv].
    destruct (Req_EM_T (rho / 12) 0) as [E0|_].
    { assert (0 < rho / 12) by (apply Rdiv_lt_0_compat; lra). lra. }
    rewrite Xmin. f_equal. unfold chirp_width. fold v.
    assert (P12 : 0 < 12 / rho) by (apply Rdiv_lt_0_compat; lra).
    replace (7/100 / (rho / 12)) with (7/100 * (12 / rho)) by (field; lra).
    replace (v / (1/5)) with (5 * v) by field. replace (3/2 * (3/10)) with (9/20) by field.
    match goal with |- Rmin _ (?a / (rho / 12)) = _ => replace (a / (rho / 12)) with (a * (12 / rho)) by (field; lra) end.
    unfold Rmin. destruct (Rle_dec (7/100 * (12 / rho)) _) as [L|L], (Rle_dec (7/100) _) as [L'|L']; try reflexivity; nra. }
  exists Mt, et. do 3 (split; [assumption|]). intros r0 r0p r rp rho Mc eta. split; [exact PR|].
  assert (Eq : banana msun (Fin m1) (Fin m2) r0 r0p r rp u = masses_from (Fin Mc) (Fin eta)).
  { unfold banana. rewrite EM, EE, ER, EB by auto. fold rho. fold rho in PR. cbn [xdiv]. destruct (Req_EM_T rho 0); [lra|]. cbn [xmul xadd]. reflexivity. }
  split; [exact Eq|]. intros PMc Pe. rewrite Eq.
  destruct (C74_back_to_masses Mc eta PMc Pe) as [a [b HH]]. exists a, b. exact HH.
Qed.
Print Assumptions C74_banana.
(** Nothing keeps the perturbed chirp mass positive: for every pair of different masses a large enough
    negative draw gives two negative masses, the "primary" being the smaller; they are finite, so they are kept. *)
Theorem C74_positive_refuted : forall msun m1 m2 u, 0 < msun -> 0 < m2 < m1 -> 0 < u <= 1 ->
  exists r a b, banana msun (Fin m1) (Fin m2) 0 0 r 0 u = (Fin a, Fin b) /\ a < b < 0.
Proof.
  intros msun m1 m2 u Hs H Hu.
  destruct (C74_banana msun m1 m2 u Hs ltac:(lra) ltac:(lra) Hu) as [Mt [et [EM [EE [Pw Hb]]]]].
  rewrite chirp_mass_fin in EM by lra. injection EM as EM. assert (PM : 0 < Mt) by (rewrite <- EM; apply exp_pos).
  rewrite eta_fin in EE by lra. injection EE as EE.
  assert (Pe : 0 < et < 1/4).
  { rewrite <- EE. assert (0 < (m1 + m2) * (m1 + m2)) by nra. split; [apply Rdiv_lt_0_compat; nra|].
    apply (Rmult_lt_reg_r ((m1 + m2) * (m1 + m2))); auto. unfold Rdiv at 1. rewrite Rmult_assoc, Rinv_l by lra. nra. }
  set (rho := 9 * Rpower u (-(1/3))) in *.
  pose proof (Hb 0 0 0 0) as [Hrho _]. fold rho in Hrho.
  set (w := chirp_width msun Mt * (12 / rho)).
  assert (Pww : 0 < w) by (apply Rmult_lt_0_compat; [lra|apply Rdiv_lt_0_compat; lra]).
  exists (-2 / w). destruct (Hb 0 0 (-2 / w) 0) as [_ [E _]]. cbv zeta in E. fold rho in E.
  replace (chirp_width msun Mt * (12 / rho) * (0 + -2 / w)) with (-2) in E by (fold w; field; lra).
  replace (3/100 * (12 / rho) * (0 + 0)) with 0 in E by ring. rewrite Rplus_0_r, Rmult_1_r in E.
  replace (Mt * (1 + -2)) with (- Mt) in E by ring.
  rewrite masses_from_fin in E by lra. pose proof (root_bounds et ltac:(lra)) as Hd.
  assert (0 < sqrt (1 - 4 * et)) by (apply sqrt_lt_R0; lra).
  do 2 eexists. split; [exact E|].
  assert (PR : 0 < Rpower et (-(3/5))) by (unfold Rpower; apply exp_pos).
  set (d := sqrt (1 - 4 * et)) in *. set (F := 1/2 * - Mt * Rpower et (-(3/5))). assert (F < 0) by (unfold F; nra). split; nra.
Qed.
Print Assumptions C74_positive_refuted.
(** 30 + 20 solar masses with no perturbation come back unchanged *)
Example C74_nonvacuous : exists a b, banana (1/200000) (Fin 30) (Fin 20) 0 0 0 0 1 = (Fin a, Fin b)
  /\ symmetric_mass_ratio (Fin a) (Fin b) = Fin (6/25) /\ a > b.
Proof.
  destruct (C74_banana (1/200000) 30 20 1) as [Mt [et [EM [EE [_ Hb]]]]]; try lra.
  rewrite eta_fin in EE by lra. injection EE as EE. rewrite chirp_mass_fin in EM by lra. injection EM as EM.
  assert (PM : 0 < Mt) by (rewrite <- EM; apply exp_pos).
  assert (Het : et = 6/25) by (rewrite <- EE; field).
  destruct (Hb 0 0 0 0) as [_ [_ H]]. cbv zeta in H. rewrite !Rplus_0_r, !Rmult_0_r, !Rplus_0_r, !Rmult_1_r in H.
  destruct (H PM ltac:(lra)) as [a [b [E [Hab [Hb0 [_ S]]]]]]. exists a, b. split; [exact E|]. split; [now rewrite S, Het|].
  destruct Hab as [Hab|Hab]; auto. exfalso. subst b. rewrite eta_fin in S by lra. injection S as S.
  rewrite Het in S. assert (a * a / ((a + a) * (a + a)) = 1/4) by (field; lra). lra.
Qed.

(** ** C75 *)
Section C75.
Variable sample : rng -> nat -> list X.
Hypothesis sample_length : forall k n, length (sample k n) = n.
Variables cut_low cut_high : option X.
Lemma oor_acceptable x : out_of_range cut_low cut_high x = false <-> acceptable cut_low cut_high x.
Proof.
  unfold out_of_range, acceptable. rewrite orb_false_iff.
  split; intros [A B]; split.
  - intros c ->. exact A.
  - intros c ->. exact B.
  - destruct cut_low; auto.
  - destruct cut_high; auto.
Qed.
Lemma replace_length err new : length (replace_invalid cut_low cut_high err new) = length err.
Proof.
  revert new; induction err as [|x t IH]; intros new; auto. cbn [replace_invalid]. destruct (out_of_range _ _ x).
  - destruct new; cbn; now rewrite IH.
  - cbn. now rewrite IH.
Qed.
Lemma replace_nth err new i d : (i < length err)%nat ->
  nth i (replace_invalid cut_low cut_high err new) d = nth i err d
  \/ (out_of_range cut_low cut_high (nth i err d) = true /\ In (nth i (replace_invalid cut_low cut_high err new) d) new).
Proof.
  revert new i; induction err as [|x t IH]; intros new i Hi; [cbn in Hi; lia|]. cbn [replace_invalid].
  destruct (out_of_range _ _ x) eqn:E.
  - destruct new as [|n ns].
    + destruct i; [now left|]. cbn in *. apply (IH []). lia.
    + destruct i; [right; cbn; auto|]. cbn in *. destruct (IH ns i ltac:(lia)) as [H|[H1 H2]]; [now left|right; auto].
  - destruct i; [now left|]. cbn in *. apply IH. lia.
Qed.
Lemma descends_trans a b : descends (Child a 0) b -> descends a b.
Proof. induction 1; [constructor; constructor|now constructor]. Qed.
Lemma resample_spec fuel : forall key err out,
  resample sample cut_low cut_high fuel key err = Some out ->
  length out = length err /\ List.Forall (acceptable cut_low cut_high) out
  /\ forall i, (i < length err)%nat -> (acceptable cut_low cut_high (nth i err NaN) /\ nth i out NaN = nth i err NaN)
       \/ (~ acceptable cut_low cut_high (nth i err NaN) /\ exists k n, descends (Child key 0) k /\ In (nth i out NaN) (sample k n)).
Proof.
  induction fuel as [|fuel IH]; intros key err out H; cbn [resample] in H; destruct (existsb _ err) eqn:E; try discriminate.
  - injection H as <-. split; auto.
    assert (A : List.Forall (acceptable cut_low cut_high) err).
    { apply Forall_forall. intros x Hx. apply oor_acceptable. destruct (out_of_range cut_low cut_high x) eqn:O; auto.
      assert (existsb (out_of_range cut_low cut_high) err = true) by (apply existsb_exists; eauto). congruence. }
    split; auto. intros i Hi. left. split; auto. rewrite Forall_forall in A. apply A, nth_In, Hi.
  - destruct (IH _ _ _ H) as [L [F N]]. rewrite replace_length in L, N. split; auto. split; auto.
    intros i Hi. destruct (N i Hi) as [[A B]|[A [k [n [D I]]]]]; destruct (replace_nth err (sample (Child key 0) (count_invalid cut_low cut_high err)) i NaN Hi) as [R|[R1 R2]].
    + left. cbn [split2 fst] in A, B. rewrite R in A, B. auto.
    + right. split; [intros A'; apply oor_acceptable in A'; congruence|]. cbn [split2 fst] in B. rewrite <- B in R2.
      exists (Child key 0), (count_invalid cut_low cut_high err). split; [constructor|exact R2].
    + right. cbn [split2 fst] in A, D. rewrite R in A. split; auto. exists k, n. split; auto. now apply descends_trans.
    + right. split; [intros A'; apply oor_acceptable in A'; congruence|]. exists k, n. split; auto. cbn in D. now apply descends_trans.
  - injection H as <-. split; auto.
    assert (A : List.Forall (acceptable cut_low cut_high) err).
    { apply Forall_forall. intros x Hx. apply oor_acceptable. destruct (out_of_range cut_low cut_high x) eqn:O; auto.
      assert (existsb (out_of_range cut_low cut_high) err = true) by (apply existsb_exists; eauto). congruence. }
    split; auto. intros i Hi. left. split; auto. rewrite Forall_forall in A. apply A, nth_In, Hi.
Qed.
End C75.

(** If the call returns, it returns [size] values, none beyond a cut; a first draw within the cuts is
    kept, any other is replaced by a draw made with a fresh key. *)
Theorem C75_within_cuts : forall sample cut_low cut_high scale size key fuel out,
  (forall k n, length (sample k n) = n) ->
  truncated_normal_error sample cut_low cut_high scale size key fuel = Returned out ->
  length out = size /\ List.Forall (acceptable cut_low cut_high) out
  /\ forall i, (i < size)%nat -> let first := nth i (sample key size) NaN in
       (acceptable cut_low cut_high first /\ nth i out NaN = first)
       \/ (~ acceptable cut_low cut_high first /\ exists k n, descends (Child key 0) k /\ In (nth i out NaN) (sample k n)).
Proof.
  intros sample cl ch scale size key fuel out Hl H. unfold truncated_normal_error in H. destruct scale; [|discriminate].
  assert (C : (cl = None /\ ch = None /\ out = sample key size) \/ resample sample cl ch fuel key (sample key size) = Some out).
  { destruct cl, ch; try (destruct (resample _ _ _ _ _ _) eqn:E; [injection H as <-; right; reflexivity|discriminate]).
    injection H as <-. left. auto. }
  clear H. destruct C as [[-> [-> ->]]|C].
  - assert (A : forall x, acceptable None None x) by (intros x; split; intros c; discriminate).
    split; [apply Hl|]. split; [apply Forall_forall; auto|]. intros i Hi first. left. auto.
  - destruct (resample_spec sample cl ch fuel key _ _ C) as [L [F N]]. rewrite Hl in L, N. split; auto.
Qed.
Print Assumptions C75_within_cuts.
Fixpoint depth (k : rng) : nat := match k with Seed _ => O | Child p _ => S (depth p) end.
(** a replacement key is never the key of the first draw *)
Theorem C75_fresh_keys : forall key k, descends (Child key 0) k -> k <> key.
Proof.
  intros key k D. assert (A : (depth k > depth key)%nat) by (induction D; cbn [depth]; lia).
  intros ->. lia.
Qed.
Print Assumptions C75_fresh_keys.
(** a missing scale is refused; without cuts the draws are returned as they are, with no loop *)
Theorem C75_edge : forall sample cut_low cut_high size key fuel s,
  truncated_normal_error sample cut_low cut_high None size key fuel = Raised
  /\ truncated_normal_error sample None None (Some s) size key fuel = Returned (sample key size).
Proof. split; reflexivity. Qed.
Print Assumptions C75_edge.
(** The cuts may exclude the whole support of the error distribution: then the call never returns. *)
Theorem C75_terminates_refuted : forall sample cut_low cut_high s size key, (0 < size)%nat ->
  (forall k n, length (sample k n) = n) ->
  (forall k n x, In x (sample k n) -> ~ acceptable cut_low cut_high x) ->
  forall fuel, truncated_normal_error sample cut_low cut_high (Some s) size key fuel = Running.
Proof.
  intros sample cl ch s size key Hs Hl Hn fuel. unfold truncated_normal_error.
  assert (R : forall fuel key err, (0 < length err)%nat -> (forall x, In x err -> ~ acceptable cl ch x) ->
    resample sample cl ch fuel key err = None).
  { clear - Hl Hn. induction fuel as [|fuel IH]; intros key err Hle He; cbn [resample].
    - destruct (existsb _ err) eqn:E; auto. exfalso. destruct err as [|x t]; [cbn in Hle; lia|].
      apply (He x); [now left|]. apply oor_acceptable. cbn in E. now apply orb_false_iff in E.
    - destruct (existsb _ err) eqn:E.
      + apply IH; [now rewrite replace_length|]. intros x Hx. apply In_nth with (d := NaN) in Hx. destruct Hx as [i [Hi <-]].
        rewrite replace_length in Hi. destruct (replace_nth cl ch err (sample (fst (split2 key)) (count_invalid cl ch err)) i NaN Hi) as [->|[_ I]].
        * apply He, nth_In, Hi.
        * eapply Hn, I.
      + exfalso. destruct err as [|x t]; [cbn in Hle; lia|].
        apply (He x); [now left|]. apply oor_acceptable. cbn in E. now apply orb_false_iff in E. }
  destruct cl as [c|], ch as [c'|]; try (rewrite R; auto; [rewrite Hl; auto|intros x; apply Hn]).
  exfalso. specialize (Hl key size). destruct (sample key size) as [|x t] eqn:E; [cbn in Hl; lia|].
  apply (Hn key size x); [rewrite E; now left|]. split; intros c; discriminate.
Qed.
Print Assumptions C75_terminates_refuted.
(** the first draw is below the cut, the second is not *)
Example C75_nonvacuous :
  truncated_normal_error (fun k n => match k with Seed _ => repeat (Fin (-1)) n | _ => repeat (Fin 1) n end)
    (Some (Fin 0)) None (Some 1) 2 (Seed 0) 1 = Returned [Fin 1; Fin 1].
Proof.
  unfold truncated_normal_error. cbn. unfold out_of_range, xltb. repeat (destruct (Rlt_dec _ _); try lra). cbn.
  repeat (destruct (Rlt_dec _ _); try lra; cbn). unfold count_invalid, out_of_range, xltb; cbn. repeat (destruct (Rlt_dec _ _); try lra; cbn). reflexivity.
Qed.
