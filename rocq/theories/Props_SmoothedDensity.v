(** Properties C93, C94: the density of the smoothed hybrid mass models. *)
From Coq Require Import Bool Reals List Lia Lra.
From Coquelicot Require Import Coquelicot.
From Verif Require Import Model_X Spec_X Proofs_X Model_Mass Model_Spin Spec_Density Proofs_Mass Proofs_Cosmology
  Proofs_MassGrid Proofs_Integral Proofs_Spin Model_SmoothedDensity Spec_SmoothedDensity Proofs_SmoothedDensity.
Import ListNotations.
Open Scope R_scope.

Lemma planck_eq x : wexp (log_planck_taper_window x) = planck x.
Proof.
  unfold planck. destruct (Rle_dec x 0); [now rewrite window_low|]. destruct (Rlt_dec x 1).
  - change (window x = / (1 + exp (1 / x + 1 / (x - 1)))). rewrite window_inside by lra. now rewrite !Rdiv_1_l || (unfold Rdiv; rewrite !Rmult_1_l).
  - rewrite window_high by lra. apply exp_0.
Qed.
Lemma Z_positive {T} d1 d2 m1max m1min m2min lambdas (components : list ((R -> X) * (T -> X))) support :
  mixture_ok components lambdas support -> masses_ok components lambdas d1 d2 m1max m1min m2min ->
  0 < sd_Z d1 m1max m1min lambdas components.
Proof.
  intros (H1 & H2 & H3 & H4 & H5) (A & B & C & D & m & Hin & Hm & Hp).
  rewrite (sd_Z_eq T d1 m1max m1min lambdas components) by auto.
  rewrite nodes_eq in Hin by lia. apply (trapezoid_pos _ _ m).
  - apply linspace_inc; [lra|lia].
  - unfold sd_m1s. rewrite linspace_length. lia.
  - intros. now apply m1_weight_nonneg.
  - exact Hin.
  - unfold m1_weight. apply Rmult_lt_0_compat; [exact Hp|]. apply taper_pos, scaled_pos; auto.
Qed.

(** the density is the rate times the mixture, tapered in the primary mass and normalised, times
    q^beta tapered in the secondary mass and normalised *)
Theorem C93_density : forall (T : Type) validate beta d1 d2 log_rate m1max m1min m2min lambdas
  (components : list ((R -> X) * (T -> X))) support,
  mixture_ok components lambdas support -> masses_ok components lambdas d1 d2 m1max m1min m2min ->
  exists Z (Zq : R -> R),
    Z = trapezoid_sum (fun m => mass_density components lambdas m * planck ((m - m1min) / d1)) (nodes m1min m1max 1000)
    /\ 0 < Z
    /\ (forall m1, In m1 (nodes m1min m1max 1000) ->
        Zq m1 = trapezoid_sum (fun q => Rpower q beta * planck ((m1 * q - m2min) / d2)) (nodes (5 / 1000) 1 500))
    /\ affine_between (nodes m1min m1max 1000) Zq
    /\ (forall m1, m2min < m1 -> m1min <= m1 <= m1max -> 0 < Zq m1)
    /\ forall m1 t q, m1min <= m1 <= m1max -> 0 < q <= 1 ->
        let lp := sd_log_prob validate beta d1 d2 log_rate m1max m1min m2min lambdas components support m1 t q in
        finite_or_neginf lp
        /\ wexp lp = exp log_rate * (joint_density components lambdas m1 t * planck ((m1 - m1min) / d1) / Z)
                     * (Rpower q beta * planck ((m1 * q - m2min) / d2) / Zq m1).
Proof.
  intros T validate beta d1 d2 log_rate m1max m1min m2min lambdas components support HM HC.
  pose proof (Z_positive _ _ _ _ _ _ _ _ HM HC) as HZ.
  destruct HM as (H1 & H2 & H3 & H4 & H5). destruct HC as (A & B & C & D & _).
  rewrite nodes_eq by lia. rewrite q_nodes. change (linspace m1min m1max 1000) with (sd_m1s m1max m1min).
  exists (sd_Z d1 m1max m1min lambdas components), (Zi beta d2 m1max m1min m2min).
  assert (R0 : forall m1, In m1 (sd_m1s m1max m1min) -> m1min <= m1 <= m1max).
  { intros m1 Hin. apply (linspace_range m1min m1max 1000); auto; [lra|lia]. }
  split; [|split; [exact HZ|split; [|split; [|split]]]].
  - rewrite trapezoid_sum_eq, (sd_Z_eq T d1 m1max m1min lambdas components) by auto.
    apply trapezoid_ext. intros m _. unfold m1_weight. now rewrite planck_eq.
  - intros m1 Hin. pose proof (R0 m1 Hin). rewrite Zi_knot by auto. rewrite (sd_Zq_eq beta d2 m1max m1min m2min B C m1), trapezoid_sum_eq by lra.
    apply trapezoid_ext. intros q _. unfold q_weight. now rewrite planck_eq.
  - intros l a b r x E Hx.
    assert (In a (sd_m1s m1max m1min) /\ In b (sd_m1s m1max m1min)) as [Ia Ib].
    { rewrite E. split; apply in_or_app; right; [now left|right; now left]. }
    rewrite (Zi_between beta d2 m1max m1min m2min C l a b r x E Hx).
    rewrite (Zi_knot beta d2 m1max m1min m2min C a Ia), (Zi_knot beta d2 m1max m1min m2min C b Ib). reflexivity.
  - intros m1 Hlow Hr. destruct (Rlt_dec 0 (Zi beta d2 m1max m1min m2min m1)) as [h|h]; [exact h|exfalso].
    pose proof (Zi_zero_low beta d2 m1max m1min m2min B C D m1 1 Hr ltac:(lra)) as E.
    rewrite (qu_value beta d2 m1max m1min m2min B C) in E by lra. unfold q_weight in E.
    assert (P : 0 < Rpower 1 beta * wexp (log_planck_taper_window ((m1 * 1 - m2min) / d2))).
    { apply Rmult_lt_0_compat; [apply exp_pos|]. apply taper_pos, scaled_pos; lra. }
    lra.
  - intros m1 t q Hm1 Hq lp.
    destruct (sd_shape T validate beta d1 d2 log_rate m1max m1min m2min lambdas components support A B C D H1 H2 H4 H5 HZ m1 t q Hm1 ltac:(lra)) as [F E].
    fold lp in F, E. split.
    + destruct lp; cbn in F; try tauto; [right; eexists; reflexivity|now left].
    + rewrite E, (qu_value beta d2 m1max m1min m2min B C) by lra. unfold q_weight. rewrite !planck_eq. reflexivity.
Qed.
Print Assumptions C93_density.

(** no weight outside the limits *)
Theorem C93_outside : forall (T : Type) validate beta d1 d2 log_rate m1max m1min m2min lambdas
  (components : list ((R -> X) * (T -> X))) support,
  mixture_ok components lambdas support -> masses_ok components lambdas d1 d2 m1max m1min m2min ->
  forall m1 t q, m1 <= m1min \/ m1max < m1 \/ q <= 0 \/ 1 < q \/ m1 * q <= m2min ->
  sd_log_prob validate beta d1 d2 log_rate m1max m1min m2min lambdas components support m1 t q = NInf.
Proof.
  intros T validate beta d1 d2 log_rate m1max m1min m2min lambdas components support HM HC.
  pose proof (Z_positive _ _ _ _ _ _ _ _ HM HC) as HZ.
  destruct HM as (H1 & H2 & H3 & H4 & H5). destruct HC as (A & B & C & D & _). intros. now apply sd_outside.
Qed.
Print Assumptions C93_outside.

Lemma total_value validate beta d1 d2 log_rate m1max m1min m2min lambdas components support box :
  mixture_ok components lambdas support -> masses_ok components lambdas d1 d2 m1max m1min m2min ->
  List.Forall (fun c : (R -> X) * (list R -> X) => iterated_integral box (fun t => wexp (snd c t)) 1) components ->
  total_is box (sd_log_prob validate beta d1 d2 log_rate m1max m1min m2min lambdas components support) m1min m1max
    (exp log_rate * trapezoid (sd_m1s m1max m1min)
       (map (fun m => if Rlt_dec m2min m then m1_weight _ d1 m1min lambdas components m else 0) (sd_m1s m1max m1min))
     / sd_Z d1 m1max m1min lambdas components).
Proof.
  intros HM HC HI. pose proof (Z_positive _ _ _ _ _ _ _ _ HM HC) as HZ.
  destruct HM as (H1 & H2 & H3 & H4 & H5). destruct HC as (A & B & C & D & _).
  unfold total_is. rewrite nodes_eq by lia. rewrite q_nodes. change (linspace m1min m1max 1000) with (sd_m1s m1max m1min).
  set (Z := sd_Z d1 m1max m1min lambdas components) in *.
  exists (fun m1 q => exp log_rate * (m1_weight _ d1 m1min lambdas components m1 / Z)
            * (wexp (sd_q_unnorm beta d2 m1max m2min m1 q) / Zi beta d2 m1max m1min m2min m1)).
  assert (R0 : forall m1, In m1 (sd_m1s m1max m1min) -> m1min <= m1 <= m1max).
  { intros m1 Hin. apply (linspace_range m1min m1max 1000); auto; [lra|lia]. }
  split.
  - intros m1 q Hin Hq. destruct q_grid_facts as (_ & _ & _ & DQ). specialize (DQ q Hq).
    set (k := exp log_rate * (wexp (log_planck_taper_window ((m1 - m1min) / d1)) / Z)
            * (wexp (sd_q_unnorm beta d2 m1max m2min m1 q) / Zi beta d2 m1max m1min m2min m1)).
    apply (ii_ext _ (fun t => k * joint_mix _ lambdas components m1 t)).
    { intros t _. symmetry.
      destruct (sd_shape (list R) validate beta d1 d2 log_rate m1max m1min m2min lambdas components support A B C D H1 H2 H4 H5 HZ
        m1 t q (R0 _ Hin) ltac:(lra)) as [_ E]. rewrite E. fold Z. unfold k, Rdiv. ring. }
    apply (ii_value _ _ (k * mass_mix _ lambdas components m1)); [unfold k, m1_weight, Rdiv; ring|].
    apply ii_scal. now apply joint_integral.
  - rewrite trapezoid_sum_eq.
    rewrite (trapezoid_ext _ _ (fun m1 => exp log_rate / Z * (if Rlt_dec m2min m1 then m1_weight _ d1 m1min lambdas components m1 else 0))).
    { rewrite trapezoid_scale. unfold Rdiv. ring. }
    intros m1 Hin. rewrite trapezoid_sum_eq.
    rewrite (trapezoid_scale _ q_grid (fun q => wexp (sd_q_unnorm beta d2 m1max m2min m1 q) / Zi beta d2 m1max m1min m2min m1)).
    destruct (Rlt_dec m2min m1).
    + rewrite (q_sum beta d2 m1max m1min m2min); auto. unfold Rdiv. ring.
    + rewrite (q_sum_low beta d2 m1max m1min m2min); auto; [|lra]. unfold Rdiv. ring.
Qed.

(** with m2min <= m1min the density adds up to the rate on the nodes the code uses *)
Theorem C94_total_rate : forall validate beta d1 d2 log_rate m1max m1min m2min lambdas components support box,
  mixture_ok components lambdas support -> masses_ok components lambdas d1 d2 m1max m1min m2min ->
  List.Forall (fun c : (R -> X) * (list R -> X) => iterated_integral box (fun t => wexp (snd c t)) 1) components ->
  m2min <= m1min ->
  total_is box (sd_log_prob validate beta d1 d2 log_rate m1max m1min m2min lambdas components support) m1min m1max (exp log_rate).
Proof.
  intros until box. intros HM HC HI Hle. pose proof (Z_positive _ _ _ _ _ _ _ _ HM HC) as HZ.
  destruct (total_value validate beta d1 d2 log_rate m1max m1min m2min lambdas components support box HM HC HI) as (g & G1 & G2).
  exists g. split; [exact G1|]. rewrite G2.
  destruct HM as (H1 & H2 & H3 & H4 & H5). destruct HC as (A & B & C & D & _).
  rewrite (trapezoid_ext _ _ (m1_weight _ d1 m1min lambdas components)).
  - rewrite <- (sd_Z_eq _ d1 m1max m1min lambdas components) by auto. field. lra.
  - intros m Hin. destruct (Rlt_dec m2min m); [reflexivity|]. apply (linspace_range m1min m1max 1000) in Hin; [|lra|lia].
    unfold m1_weight. rewrite taper_neg; [ring|]. apply scaled_nonpos; lra.
Qed.
Print Assumptions C94_total_rate.

(** with m1min < m2min it falls short as soon as some node in between has weight *)
Theorem C94_total_rate_refuted : forall validate beta d1 d2 log_rate m1max m1min m2min lambdas components support box,
  mixture_ok components lambdas support -> masses_ok components lambdas d1 d2 m1max m1min m2min ->
  List.Forall (fun c : (R -> X) * (list R -> X) => iterated_integral box (fun t => wexp (snd c t)) 1) components ->
  (exists m, In m (nodes m1min m1max 1000) /\ m1min < m <= m2min /\ 0 < mass_density components lambdas m) ->
  exists v, v < exp log_rate /\
  total_is box (sd_log_prob validate beta d1 d2 log_rate m1max m1min m2min lambdas components support) m1min m1max v.
Proof.
  intros until box. intros HM HC HI (m & Hin & Hr & Hp). pose proof (Z_positive _ _ _ _ _ _ _ _ HM HC) as HZ.
  pose proof (total_value validate beta d1 d2 log_rate m1max m1min m2min lambdas components support box HM HC HI) as HT.
  eexists. split; [|exact HT].
  destruct HM as (H1 & H2 & H3 & H4 & H5). destruct HC as (A & B & C & D & _).
  set (w := m1_weight _ d1 m1min lambdas components) in *. set (grid := sd_m1s m1max m1min) in *.
  pose proof (sd_Z_eq _ d1 m1max m1min lambdas components A H1 H2 H4) as EZ. fold w grid in EZ.
  assert (Hi : inc1 grid) by (apply linspace_inc; [lra|lia]).
  assert (W0 : forall x, 0 <= w x) by (intros; now apply m1_weight_nonneg).
  assert (L : trapezoid grid (map (fun x => if Rlt_dec m2min x then w x else 0) grid)
            + trapezoid grid (map (fun x => if Rlt_dec m2min x then 0 else w x) grid) = trapezoid grid (map w grid)).
  { rewrite <- trapezoid_plus. apply trapezoid_ext. intros x _. destruct (Rlt_dec m2min x); ring. }
  assert (P : 0 < trapezoid grid (map (fun x => if Rlt_dec m2min x then 0 else w x) grid)).
  { rewrite nodes_eq in Hin by lia. apply (trapezoid_pos grid _ m).
    - exact Hi.
    - unfold grid, sd_m1s. rewrite linspace_length. lia.
    - intros x _. destruct (Rlt_dec m2min x); [lra|apply W0].
    - exact Hin.
    - destruct (Rlt_dec m2min m); [lra|]. unfold w, m1_weight. apply Rmult_lt_0_compat; [exact Hp|].
      apply taper_pos, scaled_pos; lra. }
  pose proof (exp_pos log_rate) as E0. rewrite EZ in *. set (t := trapezoid grid (map w grid)) in *.
  set (u := trapezoid grid (map (fun x => if Rlt_dec m2min x then w x else 0) grid)) in *.
  apply (Rmult_lt_reg_r t); [lra|]. unfold Rdiv. rewrite Rmult_assoc, Rinv_l by lra. nra.
Qed.
Print Assumptions C94_total_rate_refuted.

(** a half-and-half mixture of uniform mass distributions, with one more uniform coordinate *)
Definition ex_components : list ((R -> X) * (list R -> X)) :=
  [(fun m => uniform_log_prob m 4 60, fun t => uniform_log_prob (hd 0 t) 0 1);
   (fun m => uniform_log_prob m 2 90, fun t => uniform_log_prob (hd 0 t) (-1) 1)].
Definition ex_support (m : R) (t : list R) : bool := true.
Lemma ex_mixture : mixture_ok ex_components [1/2; 1/2] ex_support.
Proof.
  unfold mixture_ok, ex_components. repeat split.
  - repeat constructor; lra.
  - cbn [rsum]. field.
  - constructor; [|constructor; [|constructor]]; split; intros; apply uniform_fin; lra.
Qed.
Lemma ex_masses m2min : 0 < m2min -> masses_ok ex_components [1/2; 1/2] 5 3 50 5 m2min.
Proof.
  intros. unfold masses_ok. repeat split; try lra. exists 50. rewrite nodes_eq by lia. split; [apply linspace_In_last; lia|].
  split; [lra|]. unfold mass_density, ex_components. cbn [combine map rsum fst snd]. rewrite !uniform_value by lra. lra.
Qed.
Example C93_nonvacuous : mixture_ok ex_components [1/2; 1/2] ex_support
  /\ masses_ok ex_components [1/2; 1/2] 5 3 50 5 3
  /\ 0 < wexp (sd_log_prob true 1 5 3 0 50 5 3 [1/2; 1/2] ex_components ex_support 20 [1/2] (9/10)).
Proof.
  split; [apply ex_mixture|]. split; [apply ex_masses; lra|].
  destruct (C93_density (list R) true 1 5 3 0 50 5 3 [1/2; 1/2] ex_components ex_support ex_mixture (ex_masses 3 ltac:(lra)))
    as (Z & Zq & _ & HZ & _ & _ & HQ & H).
  destruct (H 20 [1/2] (9/10) ltac:(lra) ltac:(lra)) as [_ E]. cbv zeta in E. rewrite E.
  specialize (HQ 20 ltac:(lra) ltac:(lra)).
  assert (P1 : planck ((20 - 5) / 5) = 1) by (unfold planck; destruct (Rle_dec _ 0); [lra|]; destruct (Rlt_dec _ 1); lra).
  assert (P2 : planck ((20 * (9/10) - 3) / 3) = 1) by (unfold planck; destruct (Rle_dec _ 0); [lra|]; destruct (Rlt_dec _ 1); lra).
  rewrite P1, P2.
  assert (J : 0 < joint_density ex_components [1/2; 1/2] 20 [1/2]).
  { unfold joint_density, ex_components. cbn [combine map rsum fst snd hd]. rewrite !uniform_value by lra. lra. }
  apply Rmult_lt_0_compat; [apply Rmult_lt_0_compat; [apply exp_pos|]|].
  - apply Rdiv_lt_0_compat; lra.
  - apply Rdiv_lt_0_compat; auto. rewrite Rmult_1_r. apply exp_pos.
Qed.
Lemma ex_normalised : List.Forall (fun c : (R -> X) * (list R -> X) => iterated_integral [(-1, 1)] (fun t => wexp (snd c t)) 1) ex_components.
Proof.
  unfold ex_components. constructor; [|constructor; [|constructor]]; cbn [snd].
  - exists (fun x => wexp (uniform_log_prob x 0 1)). split; [reflexivity|].
    apply (is_RInt_widen _ 0 1); try lra; [intros; apply uniform_outside; lra|apply uniform_integral; lra].
  - exists (fun x => wexp (uniform_log_prob x (-1) 1)). split; [reflexivity|]. apply uniform_integral. lra.
Qed.
Example C94_nonvacuous :
  List.Forall (fun c : (R -> X) * (list R -> X) => iterated_integral [(-1, 1)] (fun t => wexp (snd c t)) 1) ex_components
  /\ masses_ok ex_components [1/2; 1/2] 5 3 50 5 3 /\ masses_ok ex_components [1/2; 1/2] 5 3 50 5 20
  /\ (exists m, In m (nodes 5 50 1000) /\ 5 < m <= 20 /\ 0 < mass_density ex_components [1/2; 1/2] m).
Proof.
  split; [apply ex_normalised|]. split; [apply ex_masses; lra|]. split; [apply ex_masses; lra|].
  exists (5 + 45 / 999). rewrite nodes_eq by lia. repeat split; try lra.
  - unfold linspace. apply in_map_iff. exists 1%nat. split; [|apply in_seq; lia].
    replace (INR (1000 - 1)) with 999 by (rewrite INR_IZR_INZ; reflexivity). simpl INR. field.
  - unfold mass_density, ex_components. cbn [combine map rsum fst snd]. rewrite !uniform_value by lra. lra.
Qed.
