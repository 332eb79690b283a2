(** Property C114: the full population models. *)
From Coq Require Import String Reals Lra Lia List Bool.
From Coquelicot Require Import Coquelicot.
From Verif Require Import Model_X Spec_X Proofs_X Spec_Density Proofs_Integral Model_Guru Model_Gauss Proofs_Gauss Model_Constraints Model_Joint
     Model_Mass Proofs_Mass Proofs_MassGrid Model_Spin Proofs_Spin Model_Cosmology Props_Cosmology Model_Redshift Model_Hybrid Spec_Hybrid Proofs_Hybrid.
Import ListNotations.
Open Scope R_scope.

Section C114.
Context {K : Type}.
Variable draw : K -> list X.
Variable validate : bool.
Variable betaln : R -> R -> R.
Variables c Ho Om Or Ol max_z dz : R.
Let peak := powerlaw_peak draw validate betaln c Ho Om Or Ol max_z dz.
Let full := two_peak_full draw validate c Ho Om Or Ol max_z dz.
Let cosmology := 0 < c /\ 0 < Ho /\ 0 < max_z /\ 0 < dz /\ expanding Om Or Ol.
(** volume per redshift, time dilation and evolution of the rate *)
Let redshifts (z_max kappa z : R) : R :=
  within 0 z_max z (wexp (logdVcdz c Ho Om Or Ol z (z_to_Dc c Ho Om Or Ol max_z dz z)) / (1 + z) * Rpower (1 + z) kappa).

Ltac given ps names := let H := fresh in
  destruct (has_dec ps names) as [H|H]; [rewrite (gets_has _ _ H); cbn [map]; split; [auto|discriminate]
                                       |rewrite (gets_none _ _ H); split; [congruence|tauto]].

(** the models can be built when, and only when, the parameters of their blocks are given *)
Theorem C114_required : forall us ur ut ue ps,
  (peak us ur ut ue ps <> None <-> has ps (peak_names us ur ut ue))
  /\ (full us ur ut ue ps <> None <-> has ps (full_names us ur ut ue)).
Proof.
  intros us ur ut ue ps. split.
  - unfold peak, powerlaw_peak, peak_names. rewrite !has_app.
    match goal with |- _ <-> has ps (?r :: ?t) /\ ?Q => transitivity (has ps t /\ Q /\ has ps [r]);
      [|rewrite (has_app ps [r] t : has ps (r :: t) <-> _); tauto] end.
    rewrite ?and_assoc.
    apply and_then_iff; [given ps ["alpha"; "beta"; "delta"; "lambda_peak"; "loc"; "mmax"; "mmin"; "scale"]%string|intros m].
    apply and_then_iff; [apply block_iff; given ps ["chi_mean"; "chi_variance"]%string|intros s].
    apply and_then_iff; [apply block_iff; given ps ["cos_tilt_zeta"; "cos_tilt_scale"]%string|intros t].
    apply and_then_iff; [apply block_iff; given ps ["eccentricity_scale"]%string|intros e].
    apply and_then_iff; [apply block_iff; given ps ["z_max"; "kappa"]%string|intros z].
    rewrite dget_has. destruct (dget ps "log_rate"%string); cbn [and_then]; split; congruence.
  - unfold full, two_peak_full, full_names. rewrite !has_app.
    match goal with |- _ <-> has ps (?r :: ?t) /\ ?Q => transitivity (has ps t /\ Q /\ has ps [r]);
      [|rewrite (has_app ps [r] t : has ps (r :: t) <-> _); tauto] end.
    rewrite ?and_assoc.
    apply and_then_iff; [given ps ["alpha1"; "alpha2"; "beta"; "loc1"; "loc2"; "scale1"; "scale2"; "delta_m1"; "delta_m2";
                           "lambda_0"; "lambda_1"; "m1min"; "m2min"; "mmax"; "mbreak"]%string|intros m].
    apply and_then_iff; [apply block_iff; given ps ["chi_loc"; "chi_scale"]%string|intros s].
    apply and_then_iff; [apply block_iff; given ps ["cos_tilt_zeta"; "cos_tilt_loc"; "cos_tilt_scale"]%string|intros t].
    apply and_then_iff; [apply block_iff; given ps ["eccentricity_loc"; "eccentricity_scale"]%string|intros e].
    apply and_then_iff; [apply block_iff; given ps ["z_max"; "kappa"]%string|intros z].
    rewrite dget_has. destruct (dget ps "log_rate"%string); cbn [and_then]; split; congruence.
Qed.

(** hyper-parameters in range, for the blocks in use *)
Definition peak_in_range (us ut ue : bool) (ps : params) : Prop :=
  let p := par ps in
  (0 < p "mmin" /\ 0 < p "delta" /\ p "mmin" + p "delta" < p "mmax" /\ 0 <= p "lambda_peak" <= 1 /\ 0 < p "scale")%string
  /\ (us = true -> 0 < p "chi_variance"%string)
  /\ (ut = true -> 0 <= p "cos_tilt_zeta"%string <= 1 /\ 0 < p "cos_tilt_scale"%string)
  /\ (ue = true -> 0 < p "eccentricity_scale"%string).
Definition full_in_range (us ut ue : bool) (ps : params) : Prop :=
  let p := par ps in
  (0 < p "m1min" < p "mbreak" /\ p "mbreak" < p "mmax" /\ 0 < p "m2min" < p "mmax" /\ 0 < p "delta_m1" /\ 0 < p "delta_m2"
   /\ 0 <= p "lambda_0" /\ 0 <= p "lambda_1" /\ p "lambda_0" + p "lambda_1" <= 1 /\ 0 < p "scale1" /\ 0 < p "scale2")%string
  /\ (us = true -> 0 < p "chi_scale"%string)
  /\ (ut = true -> 0 <= p "cos_tilt_zeta"%string <= 1 /\ 0 < p "cos_tilt_scale"%string /\ get_default ps "cos_tilt_minimum" (-1) < 1)
  /\ (ue = true -> 0 < p "eccentricity_scale"%string /\ get_default ps "eccentricity_low" 0 < get_default ps "eccentricity_high" 1).

(** PowerlawPeak: merger rate times the product of the densities of the blocks in use.  The
    concentrations of the Beta density have the given mean and variance (C40) *)
Theorem C114_powerlaw_peak : forall us ur ut ue ps mix m1 q a1 a2 t1 t2 e z, cosmology ->
  peak us ur ut ue ps = Some mix -> peak_in_range us ut ue ps ->
  (us = true -> a1 <> 0 /\ a1 <> 1 /\ a2 <> 0 /\ a2 <> 1) ->
  let p := par ps in
  let nu := p "chi_mean"%string * (1 - p "chi_mean"%string) / p "chi_variance"%string - 1 in
  let A := p "chi_mean"%string * nu in let B := (1 - p "chi_mean"%string) * nu in
  density mix (event us ut ue ur m1 q a1 a2 t1 t2 e z)
  = exp (p "log_rate"%string)
    * (on_masses (p "mmin"%string) (p "mmax"%string) m1 q
        (wexp (stc_log_prob (p "alpha") (p "beta") (p "delta") (p "lambda_peak") (p "loc") (p "mmax") (p "mmin") (p "scale") validate m1 q)%string)
       * (when us (beta_density A B (exp (betaln A B)) a1 * beta_density A B (exp (betaln A B)) a2)
       * (when ut (tilts (p "cos_tilt_zeta"%string) 1 (p "cos_tilt_scale"%string) (-1) t1 t2)
       * (when ue (if Rle_dec 0 e then 2 * norm_pdf e 0 (p "eccentricity_scale"%string) else 0)
       * when ur (redshifts (p "z_max"%string) (p "kappa"%string) z))))).
Proof.
  intros us ur ut ue ps mix m1 q a1 a2 t1 t2 e z (HC1 & HC2 & HC3 & HC4 & HC5) HP (HM & HS & HT & HE) HA p nu A B.
  assert (HH : has ps (peak_names us ur ut ue)) by (apply C114_required; unfold peak in *; congruence).
  unfold peak, powerlaw_peak in HP. unfold peak_names in HH. rewrite !has_app in HH. destruct HH as (H0 & H1 & H2 & H3 & H4).
  apply has_cons in H0 as [[rate ER] H0]. rewrite ER in HP. rewrite (gets_has _ _ H0) in HP. cbn [map and_then] in HP.
  set (M := smoothed_leaf _ _ _ _ _ _ _ _ _ _) in HP.
  assert (DM : has_density validate M [Fin m1; Fin q] (on_masses (p "mmin"%string) (p "mmax"%string) m1 q
        (wexp (stc_log_prob (p "alpha") (p "beta") (p "delta") (p "lambda_peak") (p "loc") (p "mmax") (p "mmin") (p "scale") validate m1 q)%string))).
  { rewrite on_masses_iff by apply HM. apply leaf2_density; fold p; intros S; rewrite S; [|reflexivity].
    split; [|reflexivity]. apply stc_fin; try apply HM; exact S. }
  assert (Hpr : exp (par ps "log_rate"%string) = exp rate) by (unfold par; now rewrite ER). fold p in Hpr. rewrite Hpr.
  unfold density, event. rewrite !map_app.
  destruct (factor_block validate us (match gets ps ["chi_mean"; "chi_variance"]%string with
            | Some [mean; variance] => Some (pair_leaf draw validate (beta_log_prob betaln (beta_from_mean_var mean variance)) (between 0 1))
            | _ => None end) [a1; a2] (beta_density A B (exp (betaln A B)) a1 * beta_density A B (exp (betaln A B)) a2)) as (lS & ES & FS).
  { intros ->. rewrite (gets_has _ _ H1). cbn [map]. fold p. destruct (HA eq_refl) as (N1 & N2 & N3 & N4). specialize (HS eq_refl). fold p in HS.
    assert (EB : beta_from_mean_var (p "chi_mean"%string) (p "chi_variance"%string) = (Fin A, Fin B)).
    { unfold beta_from_mean_var. rewrite !xdiv_fin by lra. unfold A, B, nu. f_equal; f_equal; field; lra. }
    rewrite EB. eexists. split; [reflexivity|]. apply pair_density.
    - intros y Sy Hy. apply beta_spec. apply between_iff in Sy. destruct Hy as [-> | ->]; lra.
    - intros y Sy. unfold beta_density. now rewrite between_within, Sy. }
  destruct (factor_block validate ut (match gets ps ["cos_tilt_zeta"; "cos_tilt_scale"]%string with
            | Some [zeta; scale] => Some (spin_orientation_leaf draw validate zeta scale scale)
            | _ => None end) [t1; t2] (tilts (p "cos_tilt_zeta"%string) 1 (p "cos_tilt_scale"%string) (-1) t1 t2)) as (lT & ET & FT).
  { intros ->. rewrite (gets_has _ _ H2). cbn [map]. fold p. destruct (HT eq_refl) as [T1 T2]. fold p in T1, T2.
    eexists. split; [reflexivity|]. apply leaf2_density.
    - intros _. apply (tilt_spec (p "cos_tilt_zeta"%string) 1 (p "cos_tilt_scale"%string) (-1) t1 t2 T1 T2). lra.
    - apply tilts_out. }
  destruct (factor_block validate ue (match gets ps ["eccentricity_scale"]%string with
            | Some [scale] => Some (half_normal_leaf draw validate scale)
            | _ => None end) [e] (if Rle_dec 0 e then 2 * norm_pdf e 0 (p "eccentricity_scale"%string) else 0)) as (lE & EE & FE).
  { intros ->. rewrite (gets_has _ _ H3). cbn [map]. fold p. specialize (HE eq_refl). fold p in HE.
    eexists. split; [reflexivity|]. apply leaf1_density; destruct (Rle_dec 0 e); try discriminate; auto.
    intros _. now apply half_spec. }
  destruct (factor_block validate ur (match gets ps ["z_max"; "kappa"]%string with
            | Some [z_max; kappa] => Some (redshift_leaf draw validate c Ho Om Or Ol max_z dz z_max kappa)
            | _ => None end) [z] (redshifts (p "z_max"%string) (p "kappa"%string) z)) as (lZ & EZ & FZ).
  { intros ->. rewrite (gets_has _ _ H4). cbn [map]. eexists. split; [reflexivity|]. now apply redshift_density. }
  rewrite ES in HP. cbn [and_then] in HP. rewrite ET in HP. cbn [and_then] in HP. rewrite EE in HP. cbn [and_then] in HP.
  rewrite EZ in HP. cbn [and_then] in HP. injection HP as <-.
  apply (factor_mixture validate rate (M :: lS ++ lT ++ lE ++ lZ)); [discriminate|].
  change (M :: lS ++ lT ++ lE ++ lZ) with ([M] ++ lS ++ lT ++ lE ++ lZ).
  now repeat apply factor_app; [apply factor_one|..].
Qed.

(** BrokenPowerlawTwoPeakFull, likewise *)
Theorem C114_two_peak_full : forall us ur ut ue ps mix m1 q a1 a2 t1 t2 e z, cosmology ->
  full us ur ut ue ps = Some mix -> full_in_range us ut ue ps ->
  let p := par ps in
  density mix (event us ut ue ur m1 q a1 a2 t1 t2 e z)
  = exp (p "log_rate"%string)
    * (on_masses (p "m2min"%string) (p "mmax"%string) m1 q
        (wexp (b2p_log_prob (p "alpha1") (p "alpha2") (p "beta") (p "loc1") (p "loc2") (p "scale1") (p "scale2") (p "delta_m1") (p "delta_m2")
                 (p "lambda_0") (p "lambda_1") (p "m1min") (p "m2min") (p "mmax") (p "mbreak") validate m1 q)%string)
       * (when us (truncated_normal (p "chi_loc"%string) (p "chi_scale"%string) 0 1 a1 * truncated_normal (p "chi_loc"%string) (p "chi_scale"%string) 0 1 a2)
       * (when ut (tilts (p "cos_tilt_zeta"%string) (p "cos_tilt_loc"%string) (p "cos_tilt_scale"%string) (get_default ps "cos_tilt_minimum" (-1)) t1 t2)
       * (when ue (truncated_normal (p "eccentricity_loc"%string) (p "eccentricity_scale"%string)
                     (get_default ps "eccentricity_low" 0) (get_default ps "eccentricity_high" 1) e)
       * when ur (redshifts (p "z_max"%string) (p "kappa"%string) z))))).
Proof.
  intros us ur ut ue ps mix m1 q a1 a2 t1 t2 e z (HC1 & HC2 & HC3 & HC4 & HC5) HP (HM & HS & HT & HE) p.
  assert (HH : has ps (full_names us ur ut ue)) by (apply C114_required; unfold full in *; congruence).
  unfold full, two_peak_full in HP. unfold full_names in HH. rewrite !has_app in HH. destruct HH as (H0 & H1 & H2 & H3 & H4).
  apply has_cons in H0 as [[rate ER] H0]. rewrite ER in HP. rewrite (gets_has _ _ H0) in HP. cbn [map and_then] in HP.
  set (M := two_peak_leaf _ _ _ _ _ _ _ _ _ _ _ _ _ _ _ _ _) in HP.
  assert (DM : has_density validate M [Fin m1; Fin q] (on_masses (p "m2min"%string) (p "mmax"%string) m1 q
        (wexp (b2p_log_prob (p "alpha1") (p "alpha2") (p "beta") (p "loc1") (p "loc2") (p "scale1") (p "scale2") (p "delta_m1") (p "delta_m2")
                 (p "lambda_0") (p "lambda_1") (p "m1min") (p "m2min") (p "mmax") (p "mbreak") validate m1 q)%string))).
  { rewrite on_masses_iff by apply HM. apply leaf2_density; fold p; intros S; rewrite S; [|reflexivity].
    split; [|reflexivity]. apply b2p_fin; try apply HM; exact S. }
  assert (Hpr : exp (par ps "log_rate"%string) = exp rate) by (unfold par; now rewrite ER). fold p in Hpr. rewrite Hpr.
  unfold density, event. rewrite !map_app.
  destruct (factor_block validate us (match gets ps ["chi_loc"; "chi_scale"]%string with
            | Some [loc; scale] => Some (pair_leaf draw validate (fun x => truncated_normal_log_prob x loc scale 0 1) (between 0 1))
            | _ => None end) [a1; a2] (truncated_normal (p "chi_loc"%string) (p "chi_scale"%string) 0 1 a1 * truncated_normal (p "chi_loc"%string) (p "chi_scale"%string) 0 1 a2)) as (lS & ES & FS).
  { intros ->. rewrite (gets_has _ _ H1). cbn [map]. fold p. specialize (HS eq_refl). fold p in HS.
    eexists. split; [reflexivity|]. apply pair_density.
    - intros y _ _. apply tn_spec; lra.
    - intros y. apply tn_out. }
  destruct (factor_block validate ut (match gets ps ["cos_tilt_zeta"; "cos_tilt_loc"; "cos_tilt_scale"]%string with
            | Some [zeta; loc; scale] => Some (minimum_tilt_leaf draw validate zeta loc scale (get_default ps "cos_tilt_minimum" (-1)))
            | _ => None end) [t1; t2] (tilts (p "cos_tilt_zeta"%string) (p "cos_tilt_loc"%string) (p "cos_tilt_scale"%string) (get_default ps "cos_tilt_minimum" (-1)) t1 t2)) as (lT & ET & FT).
  { intros ->. rewrite (gets_has _ _ H2). cbn [map]. fold p. destruct (HT eq_refl) as (T1 & T2 & T3). fold p in T1, T2.
    eexists. split; [reflexivity|]. apply leaf2_density.
    - intros _. now apply tilt_spec.
    - apply tilts_out. }
  destruct (factor_block validate ue (match gets ps ["eccentricity_loc"; "eccentricity_scale"]%string with
            | Some [loc; scale] =>
              Some (truncated_normal_leaf draw validate loc scale (get_default ps "eccentricity_low" 0) (get_default ps "eccentricity_high" 1))
            | _ => None end) [e] (truncated_normal (p "eccentricity_loc"%string) (p "eccentricity_scale"%string)
                     (get_default ps "eccentricity_low" 0) (get_default ps "eccentricity_high" 1) e)) as (lE & EE & FE).
  { intros ->. rewrite (gets_has _ _ H3). cbn [map]. fold p. destruct (HE eq_refl) as [T1 T2]. fold p in T1.
    eexists. split; [reflexivity|]. apply leaf1_density; [intros _; now apply tn_spec|apply tn_out]. }
  destruct (factor_block validate ur (match gets ps ["z_max"; "kappa"]%string with
            | Some [z_max; kappa] => Some (redshift_leaf draw validate c Ho Om Or Ol max_z dz z_max kappa)
            | _ => None end) [z] (redshifts (p "z_max"%string) (p "kappa"%string) z)) as (lZ & EZ & FZ).
  { intros ->. rewrite (gets_has _ _ H4). cbn [map]. eexists. split; [reflexivity|]. now apply redshift_density. }
  rewrite ES in HP. cbn [and_then] in HP. rewrite ET in HP. cbn [and_then] in HP. rewrite EE in HP. cbn [and_then] in HP.
  rewrite EZ in HP. cbn [and_then] in HP. injection HP as <-.
  apply (factor_mixture validate rate (M :: lS ++ lT ++ lE ++ lZ)); [discriminate|].
  change (M :: lS ++ lT ++ lE ++ lZ) with ([M] ++ lS ++ lT ++ lE ++ lZ).
  now repeat apply factor_app; [apply factor_one|..].
Qed.

(** integrating over the spins, tilts and eccentricities leaves the density of the model built
    without these blocks *)
Theorem C114_full_marginal : forall ur ps mix mix' m1 q z, cosmology ->
  full true ur true true ps = Some mix -> full_in_range true true true ps ->
  full false ur false false ps = Some mix' ->
  iterated_integral [(0, 1); (0, 1); (get_default ps "cos_tilt_minimum" (-1), 1); (get_default ps "cos_tilt_minimum" (-1), 1);
                     (get_default ps "eccentricity_low" 0, get_default ps "eccentricity_high" 1)]
    (fun xs => match xs with [a1; a2; t1; t2; e] => density mix (event true true true ur m1 q a1 a2 t1 t2 e z) | _ => 0 end)
    (density mix' (event false false false ur m1 q 0 0 0 0 0 z)).
Proof.
  intros ur ps mix mix' m1 q z HC HP HR HP'.
  pose proof (fun a1 a2 t1 t2 e => C114_two_peak_full true ur true true ps mix m1 q a1 a2 t1 t2 e z HC HP HR) as D. cbv zeta in D.
  rewrite (C114_two_peak_full false ur false false ps mix' m1 q 0 0 0 0 0 z HC HP').
  2:{ destruct HR as [HM _]. repeat split; try discriminate; apply HM. }
  destruct HR as (_ & HS & HT & HE). specialize (HS eq_refl). destruct (HT eq_refl) as (T1 & T2 & T3). destruct (HE eq_refl) as [E1 E2].
  cbn [when] in D |- *. set (p := par ps) in *. set (mn := get_default ps "cos_tilt_minimum" (-1)) in *.
  set (lo := get_default ps "eccentricity_low" 0) in *. set (hi := get_default ps "eccentricity_high" 1) in *.
  set (M := on_masses _ _ _ _ _) in *. set (Z := when ur _) in *. set (r := exp _) in *.
  set (s := truncated_normal (p "chi_loc"%string) (p "chi_scale"%string) 0 1) in *.
  set (ti := tilts (p "cos_tilt_zeta"%string) (p "cos_tilt_loc"%string) (p "cos_tilt_scale"%string) mn) in *.
  set (ec := truncated_normal (p "eccentricity_loc"%string) (p "eccentricity_scale"%string) lo hi) in *.
  cbn [iterated_integral]. set (k := r * (M * Z)).
  assert (IS : is_RInt s 0 1 1) by (apply tn_one; [exact HS|lra]).
  exists (fun a1 => k * s a1). split; [intros a1 _|replace (r * _) with k by (unfold k; ring); now apply is_RInt_scal1].
  exists (fun a2 => k * s a1 * s a2). split; [intros a2 _|now apply is_RInt_scal1].
  exists (fun t1 => k * s a1 * s a2 * ((1 - p "cos_tilt_zeta"%string) * uniform mn 1 t1
                    + p "cos_tilt_zeta"%string * truncated_normal (p "cos_tilt_loc"%string) (p "cos_tilt_scale"%string) mn 1 t1)).
  split; [intros t1 _|apply is_RInt_scal1; now apply tilts_first].
  exists (fun t2 => k * s a1 * s a2 * ti t1 t2). split; [intros t2 _|].
  2:{ eapply is_RInt_scal_R; [now apply tilts_second|reflexivity]. }
  exists (fun e => k * s a1 * s a2 * ti t1 t2 * ec e). split; [intros e _|now apply is_RInt_scal1, tn_one].
  rewrite D. unfold k. ring.
Qed.
(** likewise for PowerlawPeak and its spins and tilts, if betaln is the logarithm of the Beta integral *)
Theorem C114_peak_marginal : forall ur ps mix mix' m1 q z, cosmology ->
  peak true ur true false ps = Some mix -> peak_in_range true true false ps ->
  peak false ur false false ps = Some mix' ->
  (forall a b B, is_RInt (fun x => Rpower x (a - 1) * Rpower (1 - x) (b - 1)) 0 1 B -> exp (betaln a b) = B) ->
  (let p := par ps in let nu := p "chi_mean"%string * (1 - p "chi_mean"%string) / p "chi_variance"%string - 1 in
   exists B, is_RInt (fun x => Rpower x (p "chi_mean"%string * nu - 1) * Rpower (1 - x) ((1 - p "chi_mean"%string) * nu - 1)) 0 1 B) ->
  iterated_integral [(0, 1); (0, 1); (-1, 1); (-1, 1)]
    (on4 (fun a1 a2 t1 t2 => density mix (event true true false ur m1 q a1 a2 t1 t2 0 z)))
    (density mix' (event false false false ur m1 q 0 0 0 0 0 z)).
Proof.
  intros ur ps mix mix' m1 q z HC HP HR HP' Hb HI.
  pose proof (fun a1 a2 t1 t2 Ha => C114_powerlaw_peak true ur true false ps mix m1 q a1 a2 t1 t2 0 z HC HP HR (fun _ => Ha)) as D. cbv zeta in D, HI.
  rewrite (C114_powerlaw_peak false ur false false ps mix' m1 q 0 0 0 0 0 z HC HP').
  2:{ destruct HR as [HM _]. repeat split; try discriminate; apply HM. }
  2:{ discriminate. }
  destruct HR as (_ & HS & HT & HE). destruct (HT eq_refl) as (T1 & T2).
  cbn [when] in D |- *. set (p := par ps) in *.
  set (A := p "chi_mean"%string * _) in *. set (B := (1 - p "chi_mean"%string) * _) in *.
  set (M := on_masses _ _ _ _ _) in *. set (Z := when ur _) in *. set (r := exp (p "log_rate"%string)) in *.
  assert (IS : is_RInt (beta_density A B (exp (betaln A B))) 0 1 1).
  { destruct HI as [b HI]. apply beta_one; [apply Rgt_not_eq, exp_pos|]. now rewrite (Hb _ _ _ HI). }
  set (s := beta_density A B (exp (betaln A B))) in *.
  set (ti := tilts (p "cos_tilt_zeta"%string) 1 (p "cos_tilt_scale"%string) (-1)) in *.
  cbn [iterated_integral]. set (k := r * (M * Z)).
  exists (fun a1 => k * s a1). split; [intros a1 Ha1|replace (r * _) with k by (unfold k; ring); now apply is_RInt_scal1].
  exists (fun a2 => k * s a1 * s a2). split; [intros a2 Ha2|now apply is_RInt_scal1].
  exists (fun t1 => k * s a1 * s a2 * ((1 - p "cos_tilt_zeta"%string) * uniform (-1) 1 t1
                    + p "cos_tilt_zeta"%string * truncated_normal 1 (p "cos_tilt_scale"%string) (-1) 1 t1)).
  split; [intros t1 _|apply is_RInt_scal1; apply tilts_first; [exact T2|lra]].
  exists (fun t2 => k * s a1 * s a2 * ti t1 t2). split; [intros t2 _|].
  2:{ eapply is_RInt_scal_R; [apply tilts_second; [exact T2|lra]|reflexivity]. }
  unfold on4. rewrite D by lra. unfold k. ring.
Qed.
(** the half normal does not stop at one: PowerlawPeak gives unbound orbits a share of the rate *)
Theorem C114_bound_orbits_refuted : forall us ur ut ps mix m1 q a1 a2 t1 t2 e z, cosmology ->
  peak us ur ut true ps = Some mix -> peak_in_range us ut true ps ->
  (us = true -> a1 <> 0 /\ a1 <> 1 /\ a2 <> 0 /\ a2 <> 1) -> 1 < e ->
  let s := par ps "eccentricity_scale"%string in
  density mix (event us ut true ur m1 q a1 a2 t1 t2 e z)
  = exp (- (e * e / (2 * s * s))) * density mix (event us ut true ur m1 q a1 a2 t1 t2 0 z).
Proof.
  intros us ur ut ps mix m1 q a1 a2 t1 t2 e z HC HP HR HA He s.
  rewrite !(C114_powerlaw_peak us ur ut true ps mix) by auto. cbv zeta. cbn [when].
  destruct (Rle_dec 0 e); [|lra]. destruct (Rle_dec 0 0); [|lra]. fold s.
  assert (E : norm_pdf e 0 s = exp (- (e * e / (2 * s * s))) * norm_pdf 0 0 s).
  { destruct HR as (_ & _ & _ & HE). specialize (HE eq_refl). fold s in HE. unfold norm_pdf, phi.
    replace (- ((e - 0) / s * ((e - 0) / s) / 2)) with (- (e * e / (2 * s * s))) by (field; lra).
    replace (- ((0 - 0) / s * ((0 - 0) / s) / 2)) with 0 by (field; lra). rewrite exp_0. field.
    repeat split; try lra; apply Rgt_not_eq, sqrt_lt_R0; pose proof PI_RGT_0; lra. }
  rewrite E. ring.
Qed.
End C114.
Print Assumptions C114_required.
Print Assumptions C114_powerlaw_peak.
Print Assumptions C114_two_peak_full.
Print Assumptions C114_full_marginal.
Print Assumptions C114_peak_marginal.
Print Assumptions C114_bound_orbits_refuted.

(** hyper-parameters of both models, and an unbound orbit with a positive density *)
Definition some_params : params :=
  [("log_rate", 0); ("alpha", 2); ("beta", 1); ("delta", 1); ("lambda_peak", 1/2); ("loc", 5); ("mmax", 10); ("mmin", 2); ("scale", 1);
   ("alpha1", 2); ("alpha2", 3); ("loc1", 5); ("loc2", 8); ("scale1", 1); ("scale2", 1); ("delta_m1", 1); ("delta_m2", 1);
   ("lambda_0", 1/2); ("lambda_1", 1/4); ("m1min", 2); ("m2min", 2); ("mbreak", 6);
   ("chi_mean", 1/2); ("chi_variance", 1/20); ("chi_loc", 0); ("chi_scale", 1);
   ("cos_tilt_zeta", 1/2); ("cos_tilt_loc", 1); ("cos_tilt_scale", 1); ("eccentricity_loc", 0); ("eccentricity_scale", 1);
   ("z_max", 1); ("kappa", 3)]%string.
Example C114_nonvacuous : 
  (0 < 1 /\ 0 < 1 /\ 0 < 1 /\ 0 < 1 /\ expanding 1 0 0)
  /\ peak_in_range true true true some_params /\ full_in_range true true true some_params
  /\ two_peak_full (fun _ : unit => []) true 1 1 1 0 0 1 1 true true true true some_params <> None
  /\ two_peak_full (fun _ : unit => []) true 1 1 1 0 0 1 1 false true false false some_params <> None
  /\ is_RInt (fun x => Rpower x (1 / 2 * (1 / 2 * (1 - 1 / 2) / (1 / 20) - 1) - 1) * Rpower (1 - x) ((1 - 1 / 2) * (1 / 2 * (1 - 1 / 2) / (1 / 20) - 1) - 1)) 0 1 (1 / 6)
  /\ exists mix, powerlaw_peak (fun _ : unit => []) true (fun _ _ => 0) 1 1 1 0 0 1 1 false false false true some_params = Some mix
     /\ 0 < density mix (event false false true false 5 1 0 0 0 0 2 0).
Proof.
  assert (HC : 0 < 1 /\ 0 < 1 /\ 0 < 1 /\ 0 < 1 /\ expanding 1 0 0) by (repeat split; try lra; apply flat_expanding; lra).
  assert (HP : peak_in_range true true true some_params) by (unfold peak_in_range, par; cbn; repeat split; intros; lra).
  split; [exact HC|]. split; [exact HP|].
  split; [unfold full_in_range, par, get_default; cbn; repeat split; intros; lra|].
  assert (HN : forall us ur ut ue, has some_params (peak_names us ur ut ue) /\ has some_params (full_names us ur ut ue)).
  { intros us ur ut ue. split; intros n H; unfold peak_names, full_names in H; destruct us, ur, ut, ue; cbn [app In] in H;
      repeat (destruct H as [<-|H]; [eexists; reflexivity|]); destruct H. }
  split; [apply (C114_required _ _ (fun _ _ => 0)), HN|]. split; [apply (C114_required _ _ (fun _ _ => 0)), HN|]. split.
  { apply (is_RInt_ext_R (fun x => x * (1 - x))); [lra| |].
    - intros x Hx. replace (1 / 2 * (1 / 2 * (1 - 1 / 2) / (1 / 20) - 1) - 1) with 1 by field.
      replace ((1 - 1 / 2) * (1 / 2 * (1 - 1 / 2) / (1 / 20) - 1) - 1) with 1 by field. rewrite !Rpower_1 by lra. reflexivity.
    - evar_last; [apply (is_RInt_derive (fun x => x ^ 2 / 2 - x ^ 3 / 3) (fun x => x * (1 - x)))|].
      + intros x _. auto_derive; [auto|]. simpl. field.
      + intros x _. apply (ex_derive_continuous (fun x => x * (1 - x))). auto_derive. auto.
      + cbn. unfold minus, plus, opp; cbn. field. }
  pose proof (proj2 (proj1 (C114_required (fun _ : unit => []) true (fun _ _ => 0) 1 1 1 0 0 1 1 false false false true some_params)) (proj1 (HN _ _ _ _))) as HB.
  destruct (powerlaw_peak _ _ _ _ _ _ _ _ _ _ _ _ _ _ some_params) as [mix|] eqn:EM; [|congruence]. exists mix. split; [reflexivity|].
  rewrite (C114_powerlaw_peak (fun _ : unit => []) true (fun _ _ => 0) 1 1 1 0 0 1 1 false false false true some_params mix 5 1 0 0 0 0 2 0 HC EM).
  - cbv zeta. cbn [when]. rewrite !Rmult_1_l, Rmult_1_r. apply Rmult_lt_0_compat; [apply exp_pos|].
    assert (P : forall n r, dget some_params n = Some r -> par some_params n = r) by (intros n r E; unfold par; now rewrite E).
    rewrite !(P "mmin"%string 2), !(P "mmax"%string 10), (P "alpha"%string 2), (P "beta"%string 1), (P "delta"%string 1), (P "lambda_peak"%string (1/2)),
      (P "loc"%string 5), (P "scale"%string 1), (P "eccentricity_scale"%string 1) by reflexivity.
    apply Rmult_lt_0_compat.
    + unfold on_masses. destruct (Rlt_dec 0 5); [|lra]. rewrite !within_in by lra. apply stc_positive; lra.
    + destruct (Rle_dec 0 2); [|lra]. unfold norm_pdf. pose proof (phi_pos ((2 - 0) / 1)). lra.
  - destruct HP as (A & B & C & D). repeat split; try discriminate; try apply A. apply D.
  - discriminate.
Qed.
