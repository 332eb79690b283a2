(** Properties C70 and C114: the spins of the components of the two-peak model, and the full model. *)
From Coq Require Import String Reals Lra Lia List Bool.
From Coquelicot Require Import Coquelicot.
From Verif Require Import Model_X Proofs_X Spec_Density Proofs_Integral Model_Guru Model_Gauss Proofs_Gauss Model_Constraints Model_Joint
     Model_Mass Proofs_Mass Proofs_MassGrid Model_Spin Proofs_Spin Model_Cosmology Props_Cosmology Model_Redshift Model_Hybrid Spec_Hybrid Proofs_Hybrid
     Props_Hybrid Model_MultiSpin Proofs_MultiSpin Props_MultiSpin Model_MultiSpinFull Spec_MultiSpin Spec_X.
Import ListNotations.
Open Scope R_scope.

Lemma tnl_spec x loc scale lo hi : 0 < scale -> lo < hi -> wexp (truncnorm_logpdf x loc scale lo hi) = truncated_normal loc scale lo hi x.
Proof. intros. rewrite <- (proj1 (tn_agree x loc scale lo hi ltac:(auto) ltac:(auto))). now apply tn_spec. Qed.
Lemma spin_part_spec c a1 a2 t1 t2 : 0 < a1_scale c -> 0 < a2_scale c -> 0 < t1_scale c -> 0 < t2_scale c -> 0 <= tilt_zeta c <= 1 ->
  a1_low c < a1_high c -> a2_low c < a2_high c -> -1 <= t1 <= 1 -> -1 <= t2 <= 1 ->
  spin_part a1 a2 t1 t2 c = spins_of c a1 a2 t1 t2.
Proof.
  intros S1 S2 S3 S4 Z L1 L2 T1 T2. unfold spin_part, spins_of, a1_component, a2_component. rewrite !tnl_spec by auto.
  rewrite (proj2 (tilt_value t1 t2 c (a1_low c) (a1_high c) (a2_low c) (a2_high c) ltac:(unfold comp_ok; repeat split; lra))).
  replace (- (1)) with (-1) by ring. rewrite !tnl_spec by lra. unfold uniform. rewrite !within_in by lra. field.
Qed.
Lemma weighted_parts k ws cs x1 x2 t1 t2 : length ws = length cs ->
  List.Forall (fun c => spin_part x1 x2 t1 t2 c = spins_of c x1 x2 t1 t2) cs -> forall l : list X, map wexp l = map (Rmult k) ws ->
  rsum (map (fun mc => wexp (fst mc) * spin_part x1 x2 t1 t2 (snd mc)) (combine l cs))
  = k * weighted_sum ws (map (fun c => spins_of c x1 x2 t1 t2) cs).
Proof.
  intros HL HF. revert ws HL. induction HF as [|c cs E HF IH]; intros [|w ws] HL l EL; try discriminate.
  - destruct l; [|discriminate]. cbn. unfold weighted_sum. cbn. ring.
  - destruct l as [|a l]; [discriminate|]. cbn [map] in EL. injection EL as E1 E2. cbn [combine map rsum fst snd].
    rewrite (IH ws) by (auto). unfold weighted_sum. cbn [combine map rsum fst snd]. rewrite E, E1. ring.
Qed.
Lemma rsum_scal k l : rsum (map (Rmult k) l) = k * rsum l.
Proof. induction l as [|x l IH]; cbn [map rsum]; [ring|rewrite IH; ring]. Qed.

(** at a mass m1 the spins follow the distributions of the parts of the mass spectrum, each weighted by its share *)
Theorem C70_component_spins : forall a1 a2 beta loc1 loc2 scale1 scale2 d1 d2 l0 l1 m1min m2min mmax mb bpl1 bpl2 n1 n2 validate m q x1 x2 t1 t2,
  0 < m1min < mb -> mb < mmax -> 0 < m2min < mmax -> 0 < d1 -> 0 < d2 -> 0 <= l0 -> 0 <= l1 -> l0 + l1 <= 1 ->
  0 < scale1 -> 0 < scale2 ->
  List.Forall (fun c => 0 < a1_scale c /\ 0 < a2_scale c /\ 0 < t1_scale c /\ 0 < t2_scale c /\ 0 <= tilt_zeta c <= 1
                        /\ a1_low c < a1_high c /\ a2_low c < a2_high c) [bpl1; bpl2; n1; n2] ->
  m <= mmax -> 0 < q -> -1 <= t1 <= 1 -> -1 <= t2 <= 1 ->
  wexp (ms_log_prob a1 a2 beta loc1 loc2 scale1 scale2 d1 d2 l0 l1 m1min m2min mmax mb bpl1 bpl2 n1 n2 validate m q x1 x2 t1 t2)
  = wexp (b2p_log_prob a1 a2 beta loc1 loc2 scale1 scale2 d1 d2 l0 l1 m1min m2min mmax mb validate m q)
    * shared_spins (mass_parts a1 a2 loc1 loc2 scale1 scale2 l0 l1 m1min mmax mb m)
        [spins_of bpl1 x1 x2 t1 t2; spins_of bpl2 x1 x2 t1 t2; spins_of n1 x1 x2 t1 t2; spins_of n2 x1 x2 t1 t2].
Proof.
  intros a1 a2 beta loc1 loc2 scale1 scale2 d1 d2 l0 l1 m1min m2min mmax mb bpl1 bpl2 n1 n2 validate m q x1 x2 t1 t2
    H1 H2 H3 Hd1 Hd2 Hl0 Hl1 Hl Hs1 Hs2 HF Hm Hq Ht1 Ht2.
  edestruct (ms_pointwise a1 a2 beta loc1 loc2 scale1 scale2 d1 d2 l0 l1 m1min m2min mmax mb bpl1 bpl2 n1 n2 validate) as (k & Ek & Ev);
    try eassumption.
  destruct (Ev x1 x2 t1 t2 Ht1 Ht2) as [_ E]. rewrite E, Ek. clear Ev E.
  destruct (Rlt_dec m m1min) as [L|L].
  - rewrite comps_low by auto. rewrite b2p_m1_edge by lra. cbn. ring.
  - set (T := wexp (log_planck_taper_window ((m - m1min) / d1))).
    set (ws := mass_parts a1 a2 loc1 loc2 scale1 scale2 l0 l1 m1min mmax mb m).
    assert (EP : ms_weights a1 a2 loc1 loc2 scale1 scale2 l0 l1 m1min mmax mb m = ws).
    { unfold ms_weights, ws, mass_parts. rewrite !tnl_spec by lra. destruct (Rlt_dec m mb); repeat (apply f_equal2; [ring|]); reflexivity. }
    assert (EW : map wexp (ms_m1_components a1 a2 loc1 loc2 scale1 scale2 d1 l0 l1 m1min mmax mb m) = map (Rmult T) ws).
    { rewrite <- EP. apply comps_weights; auto; lra. }
    assert (ES : wexp (b2p_m1_unnorm a1 a2 loc1 loc2 scale1 scale2 d1 l0 l1 m1min mmax mb m) = T * rsum ws).
    { rewrite <- rsum_scal, <- EW. symmetry. eapply comps_spec; eauto. }
    assert (PS : 0 < rsum ws).
    { replace (rsum ws) with (b2p_mix a1 a2 loc1 loc2 scale1 scale2 l0 l1 m1min mmax mb m); [eapply b2p_mix_pos; eauto; lra|].
      rewrite <- EP. unfold b2p_mix, ms_weights. cbn [rsum]. destruct (Rlt_dec m mb); ring. }
    rewrite ES. rewrite (weighted_parts T ws [bpl1; bpl2; n1; n2] x1 x2 t1 t2 eq_refl); [| |exact EW].
    + unfold shared_spins. cbn [map]. field. lra.
    + eapply Forall_impl; [|exact HF]. intros c (A & B & C & D & E & F & G). now apply spin_part_spec.
Qed.
Print Assumptions C70_component_spins.

Section Full.
Context {K : Type}.
Variable draw : K -> list X.
Variable validate : bool.
Variables c Ho Om Or Ol max_z dz : R.
Let multi := multi_spin_full draw validate c Ho Om Or Ol max_z dz.
Let full := two_peak_full draw validate c Ho Om Or Ol max_z dz.
Let cosmology := 0 < c /\ 0 < Ho /\ 0 < max_z /\ 0 < dz /\ expanding Om Or Ol.
Let redshifts (z_max kappa z : R) : R :=
  within 0 z_max z (wexp (logdVcdz c Ho Om Or Ol z (z_to_Dc c Ho Om Or Ol max_z dz z)) / (1 + z) * Rpower (1 + z) kappa).

Ltac given ps names := let H := fresh in
  destruct (has_dec ps names) as [H|H]; [rewrite (gets_has _ _ H); cbn [map]; split; [auto|discriminate]
                                       |rewrite (gets_none _ _ H); split; [congruence|tauto]].
Lemma spin_arguments_iff ps suffix names : names = spin_names suffix ->
  (spin_arguments ps names <> None <-> has ps (spin_names suffix)).
Proof.
  intros ->. unfold spin_arguments. destruct (has_dec ps (spin_names suffix)) as [H|H].
  - rewrite (gets_has _ _ H). unfold spin_names. cbn [map]. split; [auto|discriminate].
  - rewrite (gets_none _ _ H). split; [congruence|tauto].
Qed.
Lemma spin_arguments_eq ps suffix names : names = spin_names suffix -> has ps names ->
  spin_arguments ps names = Some (spins_named ps suffix).
Proof. intros -> H. unfold spin_arguments. rewrite (gets_has _ _ H). reflexivity. Qed.

(** the model can be built when, and only when, all its parameters are given *)
Theorem C114_multi_spin_required : forall ue ps, multi ue ps <> None <-> has ps (multi_names ue).
Proof.
  intros ue ps. unfold multi, multi_spin_full, multi_names. cbn [flat_map suffixes]. rewrite !has_app.
  match goal with |- _ <-> has ps (?r :: ?t) /\ _ => rewrite (has_app ps [r] t : has ps (r :: t) <-> _) end.
  transitivity (has ps ["alpha1"; "alpha2"; "beta"; "loc1"; "loc2"; "scale1"; "scale2"; "delta_m1"; "delta_m2";
                     "lambda_0"; "lambda_1"; "m1min"; "m2min"; "mmax"; "mbreak"]%string
    /\ has ps (spin_names "bpl1") /\ has ps (spin_names "bpl2") /\ has ps (spin_names "n1") /\ has ps (spin_names "n2")
    /\ has ps (if ue then ["eccentricity_scale"]%string else []) /\ has ps ["z_max"; "kappa"]%string /\ has ps ["log_rate"]%string).
  2:{ assert (N : has ps []) by (intros n []). tauto. }
  apply and_then_iff; [given ps ["alpha1"; "alpha2"; "beta"; "loc1"; "loc2"; "scale1"; "scale2"; "delta_m1"; "delta_m2";
                           "lambda_0"; "lambda_1"; "m1min"; "m2min"; "mmax"; "mbreak"]%string|intros m].
  apply and_then_iff; [now apply spin_arguments_iff|intros b1]. apply and_then_iff; [now apply spin_arguments_iff|intros b2].
  apply and_then_iff; [now apply spin_arguments_iff|intros n1]. apply and_then_iff; [now apply spin_arguments_iff|intros n2].
  apply and_then_iff; [apply block_iff; given ps ["eccentricity_scale"]%string|intros e].
  apply and_then_iff; [given ps ["z_max"; "kappa"]%string|intros z].
  rewrite dget_has. destruct (dget ps "log_rate"%string); cbn [and_then]; split; congruence.
Qed.

Lemma leaf6_density lp su m1 q a1 a2 t1 t2 v :
  (su m1 q a1 a2 t1 t2 = true -> fin_or_ninf (lp m1 q a1 a2 t1 t2) /\ wexp (lp m1 q a1 a2 t1 t2) = v) ->
  (su m1 q a1 a2 t1 t2 = false -> v = 0 /\ (validate = true -> lp m1 q a1 a2 t1 t2 = NInf)) ->
  has_density validate (Leaf (Some 6%nat) (on6 lp) (holds6 su) draw) (map Fin [m1; q; a1; a2; t1; t2]) v.
Proof.
  intros H1 H2. unfold has_density. split; [repeat eexists|]. split; [reflexivity|]. cbn [map in_support log_prob holds6 on6]. tauto.
Qed.

Lemma ms_support_true m2min mmax bpl1 bpl2 n1 n2 m1 q a1 a2 t1 t2 : ms_support m2min mmax bpl1 bpl2 n1 n2 m1 q a1 a2 t1 t2 = true ->
  mass_ratio_mass_sandwich (Fin m2min) (Fin mmax) (Fin m1) (Fin q) = true /\ -1 <= t1 <= 1 /\ -1 <= t2 <= 1.
Proof.
  unfold ms_support, interval. rewrite !andb_true_iff. intros [[[[H _] _] [A B]] [C D]]. split; [exact H|].
  destruct (Rle_dec (- (1)) t1), (Rle_dec t1 1), (Rle_dec (- (1)) t2), (Rle_dec t2 1); try discriminate. lra.
Qed.
Lemma ms_support_false m2min mmax bpl1 bpl2 n1 n2 m1 q a1 a2 t1 t2 : ms_support m2min mmax bpl1 bpl2 n1 n2 m1 q a1 a2 t1 t2 = false ->
  mass_ratio_mass_sandwich (Fin m2min) (Fin mmax) (Fin m1) (Fin q) = true ->
  List.Forall (fun c => 0 < a1_scale c /\ 0 < a2_scale c /\ 0 < t1_scale c /\ 0 < t2_scale c /\ 0 <= tilt_zeta c <= 1
                        /\ a1_low c < a1_high c /\ a2_low c < a2_high c) [bpl1; bpl2; n1; n2] ->
  List.Forall (fun c => spins_of c a1 a2 t1 t2 = 0) [bpl1; bpl2; n1; n2].
Proof.
  unfold ms_support. intros H SM HF. rewrite SM in H. pose proof (comps_ok bpl1 bpl2 n1 n2 HF) as HC. clear HF. cbn [andb] in H.
  eapply Forall_impl; [|exact HC]. intros c0 (_ & _ & _ & _ & _ & L1 & L2 & L3 & L4 & L5 & L6). unfold spins_of.
  rewrite !andb_false_iff in H. unfold interval in H.
  assert (O : forall lo hi x, (if Rle_dec lo x then true else false) && (if Rle_dec x hi then true else false) = false -> x < lo \/ hi < x).
  { intros lo hi x. destruct (Rle_dec lo x), (Rle_dec x hi); cbn; intros; try discriminate; lra. }
  destruct H as [[[H|H]|H]|H]; apply O in H; unfold truncated_normal, uniform.
  - rewrite (within_out _ _ a1) by lra. ring.
  - rewrite (within_out _ _ a2) by lra. ring.
  - rewrite !(within_out (-1) 1 t1) by lra. ring.
  - rewrite !(within_out (-1) 1 t2) by lra. ring.
Qed.
Lemma no_spins parts (vs : list R) : List.Forall (fun v => v = 0) vs -> shared_spins parts vs = 0.
Proof.
  intros H. unfold shared_spins. replace (weighted_sum parts vs) with 0; [unfold Rdiv; ring|]. symmetry. revert parts.
  induction H as [|v vs -> H IH]; intros [|w ws]; unfold weighted_sum in *; cbn [combine map rsum fst snd]; try reflexivity. rewrite IH. ring.
Qed.

(** merger rate times the density of masses, spins and tilts and of the blocks in use *)
Theorem C114_multi_spin : forall ue ps mix m1 q a1 a2 t1 t2 e z, cosmology ->
  multi ue ps = Some mix -> multi_in_range ue ps ->
  let p := par ps in
  density mix (map Fin ([m1; q; a1; a2; t1; t2] ++ (if ue then [e] else []) ++ [z]))
  = exp (p "log_rate"%string)
    * (on_masses (p "m2min"%string) (p "mmax"%string) m1 q
        (wexp (b2p_log_prob (p "alpha1") (p "alpha2") (p "beta") (p "loc1") (p "loc2") (p "scale1") (p "scale2") (p "delta_m1") (p "delta_m2")
                 (p "lambda_0") (p "lambda_1") (p "m1min") (p "m2min") (p "mmax") (p "mbreak") validate m1 q)%string
         * shared_spins (mass_parts (p "alpha1") (p "alpha2") (p "loc1") (p "loc2") (p "scale1") (p "scale2") (p "lambda_0") (p "lambda_1")
                           (p "m1min") (p "mmax") (p "mbreak") m1)%string
             (map (fun s => spins_of (spins_named ps s) a1 a2 t1 t2) suffixes))
       * (when ue (if Rle_dec 0 e then 2 * norm_pdf e 0 (p "eccentricity_scale"%string) else 0)
       * redshifts (p "z_max"%string) (p "kappa"%string) z)).
Proof.
  intros ue ps mix m1 q a1 a2 t1 t2 e z (HC1 & HC2 & HC3 & HC4 & HC5) HP (HM & HS & HE) p.
  assert (HH : has ps (multi_names ue)) by (apply C114_multi_spin_required; congruence).
  unfold multi, multi_spin_full in HP. unfold multi_names in HH. cbn [flat_map suffixes] in HH. rewrite !has_app in HH.
  destruct HH as (H0 & (S1 & S2 & S3 & S4 & _) & H3 & H4).
  apply has_cons in H0 as [[rate ER] H0]. rewrite ER in HP. rewrite (gets_has _ _ H0) in HP. cbn [map and_then] in HP.
  rewrite (spin_arguments_eq ps "bpl1") in HP by (auto; exact S1). cbn [and_then] in HP.
  rewrite (spin_arguments_eq ps "bpl2") in HP by (auto; exact S2). cbn [and_then] in HP.
  rewrite (spin_arguments_eq ps "n1") in HP by (auto; exact S3). cbn [and_then] in HP.
  rewrite (spin_arguments_eq ps "n2") in HP by (auto; exact S4). cbn [and_then] in HP.
  set (M := multi_spin_leaf _ _ _ _ _ _ _ _ _ _ _ _ _ _ _ _ _ _ _ _ _) in HP.
  assert (DM : has_density validate M (map Fin [m1; q; a1; a2; t1; t2])
     (on_masses (p "m2min"%string) (p "mmax"%string) m1 q
        (wexp (b2p_log_prob (p "alpha1") (p "alpha2") (p "beta") (p "loc1") (p "loc2") (p "scale1") (p "scale2") (p "delta_m1") (p "delta_m2")
                 (p "lambda_0") (p "lambda_1") (p "m1min") (p "m2min") (p "mmax") (p "mbreak") validate m1 q)%string
         * shared_spins (mass_parts (p "alpha1") (p "alpha2") (p "loc1") (p "loc2") (p "scale1") (p "scale2") (p "lambda_0") (p "lambda_1")
                           (p "m1min") (p "mmax") (p "mbreak") m1)%string
             (map (fun s => spins_of (spins_named ps s) a1 a2 t1 t2) suffixes)))).
  { rewrite on_masses_iff by apply HM. apply leaf6_density; fold p; intros S.
    - destruct (ms_support_true _ _ _ _ _ _ _ _ _ _ _ _ S) as (SM & T1 & T2). rewrite SM. destruct (sandwich_pos _ _ _ _ SM) as (Q1 & Q2 & Q3).
      destruct HM as (M1 & M2 & M3 & M4 & M5 & M6 & M7 & M8 & M9 & M10). split.
      + edestruct ms_pointwise as (k & _ & Ev); [..|eapply Ev]; try eassumption; try exact HS; lra.
      + apply C70_component_spins; auto; try exact HS; lra.
    - split.
      + destruct (mass_ratio_mass_sandwich _ _ _ _) eqn:SM; [|reflexivity].
        rewrite no_spins; [ring|]. pose proof (ms_support_false _ _ _ _ _ _ _ _ _ _ _ _ S SM HS) as Z0.
        rewrite Forall_map. now rewrite (Forall_map (spins_named ps) (fun c => spins_of c a1 a2 t1 t2 = 0) suffixes) in Z0.
      + intros Hv. unfold ms_log_prob, validated. now rewrite Hv, S. }
  clearbody M.
  assert (Hpr : exp (par ps "log_rate"%string) = exp rate) by (unfold par; now rewrite ER). fold p in Hpr. rewrite Hpr.
  unfold density. rewrite !map_app.
  destruct (factor_block validate ue (match gets ps ["eccentricity_scale"]%string with
            | Some [scale] => Some (half_normal_leaf draw validate scale)
            | _ => None end) [e] (if Rle_dec 0 e then 2 * norm_pdf e 0 (p "eccentricity_scale"%string) else 0)) as (lE & EE & FE).
  { intros ->. rewrite (gets_has _ _ H3). cbn [map]. fold p. specialize (HE eq_refl). fold p in HE.
    eexists. split; [reflexivity|]. apply leaf1_density; destruct (Rle_dec 0 e); try discriminate; auto.
    intros _. now apply half_spec. }
  rewrite EE in HP. cbn [and_then] in HP. rewrite (gets_has _ _ H4) in HP. cbn [map and_then] in HP. injection HP as <-.
  set (Z := redshift_leaf draw validate c Ho Om Or Ol max_z dz (par ps "z_max"%string) (par ps "kappa"%string)).
  assert (F : factor validate ([M] ++ lE ++ [Z])
     (map Fin [m1; q; a1; a2; t1; t2] ++ map Fin (if ue then [e] else []) ++ map Fin [z]) _)
    by (apply factor_app; [exact (factor_one validate _ _ _ DM)|]; apply factor_app; [exact FE|]; apply factor_one; cbn [map];
        exact (redshift_density draw validate c Ho Om Or Ol max_z dz _ _ z HC1 HC2 HC3 HC4 HC5)).
  replace (Joint (M :: lE ++ [Z]) None) with (joined ([M] ++ lE ++ [Z])) by (destruct lE; reflexivity).
  exact (factor_mixture validate rate ([M] ++ lE ++ [Z]) _ _ ltac:(discriminate) F).
Qed.

(** integrating over spins and tilts leaves BrokenPowerlawTwoPeakFull with the same parameters, without its spins and tilts *)
Theorem C114_multi_spin_marginal : forall ps mix mix' m1 q z, cosmology ->
  multi false ps = Some mix -> multi_in_range false ps -> full false true false false ps = Some mix' ->
  exists A1 B1 A2 B2,
  (forall s, In s suffixes -> let c := spins_named ps s in A1 <= a1_low c /\ a1_high c <= B1 /\ A2 <= a2_low c /\ a2_high c <= B2)
  /\ iterated_integral [(A1, B1); (A2, B2); (-1, 1); (-1, 1)]
       (on4 (fun a1 a2 t1 t2 => density mix (map Fin [m1; q; a1; a2; t1; t2; z])))
       (density mix' (event false false false true m1 q 0 0 0 0 0 z)).
Proof.
  intros ps mix mix' m1 q z HC HP HR HP'.
  pose proof (fun a1 a2 t1 t2 => C114_multi_spin false ps mix m1 q a1 a2 t1 t2 0 z HC HP HR) as D. cbv zeta in D. cbn [app when] in D.
  assert (HR' : full_in_range false false false ps).
  { destruct HR as (HM & _). split; [exact HM|]. repeat split; discriminate. }
  pose proof (C114_two_peak_full draw validate (fun _ _ => 0) c Ho Om Or Ol max_z dz false true false false ps mix' m1 q 0 0 0 0 0 z HC HP' HR') as D'.
  cbv zeta in D'. cbn [when] in D'. fold (redshifts (par ps "z_max"%string) (par ps "kappa"%string) z) in D'. rewrite D'. clear D'.
  destruct HR as (HM & HS & _). destruct HM as (M1 & M2 & M3 & M4 & M5 & M6 & M7 & M8 & M9 & M10).
  set (p := par ps) in *.
  destruct (mass_ratio_mass_sandwich (Fin (p "m2min"%string)) (Fin (p "mmax"%string)) (Fin m1) (Fin q)) eqn:SM.
  - destruct (sandwich_pos _ _ _ _ SM) as (Q1 & Q2 & Q3).
    destruct (C70_mass_marginal (p "alpha1") (p "alpha2") (p "beta") (p "loc1") (p "loc2") (p "scale1") (p "scale2") (p "delta_m1") (p "delta_m2")
       (p "lambda_0") (p "lambda_1") (p "m1min") (p "m2min") (p "mmax") (p "mbreak")
       (spins_named ps "bpl1") (spins_named ps "bpl2") (spins_named ps "n1") (spins_named ps "n2") validate m1 q)%string
      as (A1 & B1 & A2 & B2 & HB & HI); auto; try lra.
    exists A1, B1, A2, B2. split.
    { intros s Hs. apply HB. apply (in_map (spins_named ps)) in Hs. exact Hs. }
    rewrite on_masses_iff by lra. rewrite SM.
    match goal with |- iterated_integral _ _ ?v => match v with ?r * (?b * (1 * (1 * (1 * ?zz)))) => replace v with (r * zz * b) by ring end end.
    eapply ii_ext; [|apply ii_scal; exact HI].
    intros xs Hxs. apply in_open_4 in Hxs as (x1 & x2 & t1 & t2 & -> & B1' & B2' & B3' & B4'). unfold on4.
    rewrite D, on_masses_iff, SM by lra.
    rewrite C70_component_spins by (auto; lra). cbn [map suffixes]. ring.
  - edestruct (C70_mass_marginal (p "alpha1") (p "alpha2") (p "beta") (p "loc1") (p "loc2") (p "scale1") (p "scale2") (p "delta_m1") (p "delta_m2")
       (p "lambda_0") (p "lambda_1") (p "m1min") (p "m2min") (p "mmax") (p "mbreak")
       (spins_named ps "bpl1") (spins_named ps "bpl2") (spins_named ps "n1") (spins_named ps "n2") validate (p "mmax") 1)%string
      as (A1 & B1 & A2 & B2 & HB & HI); auto; try lra.
    exists A1, B1, A2, B2. split.
    { intros s Hs. apply HB. apply (in_map (spins_named ps)) in Hs. exact Hs. }
    rewrite on_masses_iff by lra. rewrite SM.
    match goal with |- iterated_integral _ _ ?v => match type of HI with iterated_integral _ _ ?w => replace v with (0 * w) by ring end end.
    eapply ii_ext; [|apply ii_scal; exact HI].
    intros xs Hxs. apply in_open_4 in Hxs as (x1 & x2 & t1 & t2 & -> & B1' & B2' & B3' & B4'). unfold on4.
    rewrite D, on_masses_iff, SM by lra. ring.
Qed.
(** its half normal does not stop at one either *)
Theorem C114_multi_spin_bound_orbits_refuted : forall ps mix m1 q a1 a2 t1 t2 e z, cosmology ->
  multi true ps = Some mix -> multi_in_range true ps -> 1 < e ->
  let s := par ps "eccentricity_scale"%string in
  density mix (map Fin [m1; q; a1; a2; t1; t2; e; z])
  = exp (- (e * e / (2 * s * s))) * density mix (map Fin [m1; q; a1; a2; t1; t2; 0; z]).
Proof.
  intros ps mix m1 q a1 a2 t1 t2 e z HC HP HR He s.
  pose proof (fun e => C114_multi_spin true ps mix m1 q a1 a2 t1 t2 e z HC HP HR) as D. cbv zeta in D. cbn [app when] in D. rewrite !D.
  destruct (Rle_dec 0 e); [|lra]. destruct (Rle_dec 0 0); [|lra]. fold s.
  assert (E : norm_pdf e 0 s = exp (- (e * e / (2 * s * s))) * norm_pdf 0 0 s).
  { destruct HR as (_ & _ & HE). specialize (HE eq_refl). fold s in HE. unfold norm_pdf, phi.
    replace (- ((e - 0) / s * ((e - 0) / s) / 2)) with (- (e * e / (2 * s * s))) by (field; lra).
    replace (- ((0 - 0) / s * ((0 - 0) / s) / 2)) with 0 by (field; lra). rewrite exp_0. field.
    repeat split; try lra; apply Rgt_not_eq, sqrt_lt_R0; pose proof PI_RGT_0; lra. }
  rewrite E. ring.
Qed.
End Full.
Print Assumptions C114_multi_spin_required.
Print Assumptions C114_multi_spin.
Print Assumptions C114_multi_spin_marginal.
Print Assumptions C114_multi_spin_bound_orbits_refuted.

(** parameters in range, and the two models built from them *)
Definition some_multi_params : params :=
  (some_params ++ flat_map (fun s => combine (spin_names s) [1/10; 1/5; 0; 1; 1/10; 1/5; 0; 1; 1/2; 1; 1/2; 1; 1/2]) suffixes)%list.
Example C114_multi_spin_nonvacuous :
  multi_in_range true some_multi_params /\ multi_in_range false some_multi_params
  /\ (exists mix, multi_spin_full (fun _ : unit => []) true 1 1 1 0 0 1 1 true some_multi_params = Some mix)
  /\ (exists mix, multi_spin_full (fun _ : unit => []) true 1 1 1 0 0 1 1 false some_multi_params = Some mix)
  /\ (exists mix, two_peak_full (fun _ : unit => []) true 1 1 1 0 0 1 1 false true false false some_multi_params = Some mix)
  /\ spins_named some_multi_params "n1" = mkspin (1/10) (1/5) 0 1 (1/10) (1/5) 0 1 (1/2) 1 (1/2) 1 (1/2).
Proof.
  assert (R1 : forall ue, multi_in_range ue some_multi_params).
  { intros ue. unfold multi_in_range, par. cbn. split; [repeat split; lra|]. split; [|intros; lra]. repeat (constructor; [cbn; lra|]). constructor. }
  split; [apply R1|]. split; [apply R1|]. split; [eexists; reflexivity|]. split; [eexists; reflexivity|]. split; [eexists; reflexivity|].
  reflexivity.
Qed.
Example C70_component_spins_nonvacuous : let c := mkspin (1/10) (1/5) 0 1 (1/10) (1/5) 0 1 (1/2) 1 (1/2) 1 (1/2) in
  List.Forall (fun c => 0 < a1_scale c /\ 0 < a2_scale c /\ 0 < t1_scale c /\ 0 < t2_scale c /\ 0 <= tilt_zeta c <= 1
                        /\ a1_low c < a1_high c /\ a2_low c < a2_high c) [c; c; c; c]
  /\ 0 < spins_of c (1/2) (1/2) 0 0 /\ spins_of c 2 (1/2) 0 0 = 0.
Proof.
  cbv zeta. split; [repeat (constructor; [simpl; lra|]); constructor|]. unfold spins_of, truncated_normal, uniform. cbn. split.
  - rewrite !within_in by lra.
    assert (P : forall x loc s lo hi, 0 < s -> lo < hi -> 0 < norm_pdf x loc s / (ndtr ((hi - loc) / s) - ndtr ((lo - loc) / s))).
    { intros. apply Rdiv_lt_0_compat; [apply Rdiv_lt_0_compat; [apply phi_pos|lra]|].
      assert (ndtr ((lo - loc) / s) < ndtr ((hi - loc) / s)); [|lra]. apply ndtr_incr. apply Rmult_lt_compat_r; [now apply Rinv_0_lt_compat|lra]. }
    apply Rmult_lt_0_compat; [apply Rmult_lt_0_compat; apply P; lra|]. apply Rplus_lt_0_compat; [|lra].
    apply Rmult_lt_0_compat; [lra|]. apply Rmult_lt_0_compat; apply P; lra.
  - rewrite (within_out 0 1 2) by lra. ring.
Qed.
