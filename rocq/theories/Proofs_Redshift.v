From Coq Require Import Reals Lra Lia List Bool.
From Verif Require Import Model_X Spec_X Proofs_X Proofs_Transform Spec_Density Model_Powerlaw Proofs_Powerlaw Model_Cosmology Proofs_Cosmology.
From Verif Require Import Model_Mass Proofs_Mass Proofs_MassGrid Model_Redshift.
Import ListNotations.
Open Scope R_scope.

(** ** the evolution factors *)
Lemma powerlaw_psi_value kappa z : 0 <= z -> powerlaw_log_psi kappa z = Fin (kappa * ln (1 + z)).
Proof. intros Hz. unfold powerlaw_log_psi, xlog1p. cbn [xadd]. rewrite xln_pos by lra. now rewrite xmul_fin. Qed.
Lemma madau_psi_value kappa gamma zp z : 0 <= z -> 0 < 1 + zp ->
  madau_log_psi kappa gamma zp z
  = Fin (kappa * ln (1 + z) + ln (1 + Rpower (1 + zp) gamma) - ln (Rpower (1 + zp) gamma + Rpower (1 + z) gamma)).
Proof.
  intros Hz Hp. unfold madau_log_psi, xlog1p. rewrite !xpower_pos by lra. cbn [xadd].
  pose proof (Rpower_pos (1 + zp) gamma). pose proof (Rpower_pos (1 + z) gamma).
  rewrite !xln_pos by lra. rewrite xmul_fin. cbn [xadd]. now rewrite xsub_fin.
Qed.

(** ** cumulative trapezoid with a possibly vanishing first value *)
Lemma cum_inc : forall xs (f : R -> R) a, inc1 xs -> (forall x, In x xs -> 0 <= f x) ->
  (forall x, In x (tl xs) -> 0 < f x) -> inc2 (combine xs (a :: cumtrapz_from a xs (map f xs))).
Proof.
  induction xs as [|x [|x' t] IH]; intros f a Hi H0 Hp; try exact I.
  cbn [map]. change (cumtrapz_from a (x :: x' :: t) (f x :: f x' :: map f t))
    with ((a + (x' - x) * (f x' + f x) / 2) :: cumtrapz_from (a + (x' - x) * (f x' + f x) / 2) (x' :: t) (map f (x' :: t))).
  destruct Hi as [Hlt Hi]. cbn [combine]. split; [exact Hlt|]. split.
  - cbn [snd]. pose proof (H0 x ltac:(now left)). pose proof (Hp x' ltac:(now left)).
    assert (0 < (x' - x) * (f x' + f x)) by (apply Rmult_lt_0_compat; lra). lra.
  - apply (IH f); auto.
    + intros y Hy. apply H0. now right.
    + intros y Hy. apply Hp. now right.
Qed.
Lemma cum_last : forall xs ys a, length xs = length ys -> last (a :: cumtrapz_from a xs ys) 0 = a + trapezoid xs ys.
Proof.
  induction xs as [|x [|x' t] IH]; intros [|y [|y' u]] a HL; try discriminate; try (simpl; ring).
  change (cumtrapz_from a (x :: x' :: t) (y :: y' :: u))
    with ((a + (x' - x) * (y' + y) / 2) :: cumtrapz_from (a + (x' - x) * (y' + y) / 2) (x' :: t) (y' :: u)).
  change (last (a :: ?h :: ?r) 0) with (last (h :: r) 0). rewrite IH by (simpl in *; lia).
  change (trapezoid (x :: x' :: t) (y :: y' :: u)) with ((x' - x) * (y' + y) / 2 + trapezoid (x' :: t) (y' :: u)). ring.
Qed.

Section Red.
Variables c Ho Om Or Ol max_z dz : R.
Hypothesis Hc : 0 < c.
Hypothesis HHo : 0 < Ho.
Hypothesis Hz : 0 < max_z.
Hypothesis Hdz : 0 < dz.
Hypothesis HE : forall z, 0 <= z -> 0 < E_squared Om Or Ol z.
Variable psi : R -> X.
Hypothesis Hpsi : forall z, 0 <= z -> exists r, psi z = Fin r.
Variable z_max : R.
Hypothesis Hm : 0 < z_max.
Variable validate : bool.
Notation ls := (log_spacetime c Ho Om Or Ol max_z dz psi).
Notation Dc := (z_to_Dc c Ho Om Or Ol max_z dz).

Lemma ls_zero : ls 0 = NInf.
Proof.
  unfold log_spacetime. destruct (z_to_Dc_facts c Ho Om Or Ol max_z dz Hc HHo Hz Hdz HE) as (_ & _ & Z). rewrite Z.
  pose proof (dDcdz_pos c Ho Om Or Ol Hc HHo HE 0 ltac:(lra)) as P. pose proof PI_RGT_0 as PP.
  unfold logdVcdz, xlog1p. cbn [xadd]. rewrite (xln_pos (1 + 0)), (xln_pos (4 * PI)), (xln_pos 10), (xln_pos (dDcdz _ _ _ _ _ _)), xln_zero by lra.
  destruct (Hpsi 0 ltac:(lra)) as [r ->].
  cbn [xmul]. unfold xinf_times. destruct (Rlt_dec 0 2); [reflexivity|lra].
Qed.
Lemma ls_value z : 0 < z -> exists r, ls z = Fin r /\
  exp r = 4 * PI / 10 ^ 9 * (Dc z) ^ 2 * dDcdz c Ho Om Or Ol z * / (1 + z) * wexp (psi z).
Proof.
  intros Hz0. unfold log_spacetime. destruct (z_to_Dc_facts c Ho Om Or Ol max_z dz Hc HHo Hz Hdz HE) as (_ & P0 & _).
  pose proof (P0 z Hz0) as PD. pose proof (dDcdz_pos c Ho Om Or Ol Hc HHo HE z ltac:(lra)) as P. pose proof PI_RGT_0 as PP.
  pose proof (dVcdz_value c Ho Om Or Ol Hc HHo HE z (Dc z) ltac:(lra) PD) as V. unfold dVcdz in V.
  unfold xlog1p. cbn [xadd]. rewrite (xln_pos (1 + z)) by lra. cbn [xopp].
  destruct (Hpsi z ltac:(lra)) as [s ->].
  apply (f_equal fin_part) in V. cbn [fin_part] in V.
  assert (PV : 0 < 4 * PI / 10 ^ 9 * Dc z ^ 2 * dDcdz c Ho Om Or Ol z).
  { apply Rmult_lt_0_compat; [|exact P]. apply Rmult_lt_0_compat; [|now apply pow_lt].
    apply Rdiv_lt_0_compat; [lra|apply pow_lt; lra]. }
  destruct (logdVcdz c Ho Om Or Ol z (Dc z)) as [v| | |]; cbn [xexp fin_part] in V; try lra.
  cbn [xadd wexp]. exists (- ln (1 + z) + v + s). split; [reflexivity|].
  rewrite !exp_plus, exp_Ropp, exp_ln, V by lra. ring.
Qed.
Lemma ls_fin z : 0 <= z -> fin_or_ninf (ls z).
Proof.
  intros [H|<-]; [|rewrite ls_zero; exact I]. destruct (ls_value z H) as (r & -> & _). exact I.
Qed.
Lemma ls_pos z : 0 < z -> 0 < wexp (ls z).
Proof. intros H. destruct (ls_value z H) as (r & -> & _). apply exp_pos. Qed.

Lemma grid_Z_pos n : (2 <= n)%nat -> 0 < trapezoid (linspace 0 z_max n) (map (fun z => wexp (ls z)) (linspace 0 z_max n)).
Proof.
  intros Hn. apply (trapezoid_pos _ (fun z => wexp (ls z)) z_max).
  - apply linspace_inc; auto.
  - now rewrite linspace_length.
  - intros; apply wexp_nonneg.
  - now apply linspace_In_last.
  - now apply ls_pos.
Qed.

Theorem redshift_normalised :
  let lognorm := redshift_log_norm c Ho Om Or Ol max_z dz psi z_max in
  exists L, lognorm = Fin L /\
  trapezoid (linspace 0 z_max 2500)
    (map (fun z => wexp (xsub (redshift_log_prob c Ho Om Or Ol max_z dz psi z_max validate z) lognorm)) (linspace 0 z_max 2500)) = 1.
Proof.
  intros lognorm. pose proof (grid_Z_pos 2500 ltac:(lia)) as P.
  set (Z := trapezoid _ _) in P. assert (E : lognorm = xln (Fin Z)) by reflexivity.
  exists (ln Z). split; [rewrite E; now apply xln_pos|].
  rewrite (trapezoid_ext _ _ (fun z => / Z * wexp (ls z))).
  - rewrite trapezoid_scale. fold Z. field. lra.
  - intros z Hin. apply linspace_range in Hin; [|auto|lia]. rewrite E, wexp_xsub_ln by auto.
    unfold redshift_log_prob, validated. destruct (Rle_dec 0 z); [|lra]. destruct (Rle_dec z z_max); [|lra].
    cbn [andb]. destruct validate; unfold Rdiv; ring.
Qed.

Lemma ten_thousand : (2 <= 10000)%nat.
Proof. apply Nat.leb_le. vm_compute. reflexivity. Qed.
Lemma ten_thousand1 : (1 <= 10000)%nat.
Proof. pose proof ten_thousand. lia. Qed.
Notation cdf := (redshift_cdf c Ho Om Or Ol max_z dz psi z_max).
Notation grid := (linspace 0 z_max 10000).
Notation sample := (redshift_sample c Ho Om Or Ol max_z dz psi z_max).

Lemma cdf_facts : length grid = length cdf /\ inc2 (combine grid cdf) /\ hd 0 cdf = 0 /\ last cdf 0 = 1.
Proof.
  pose proof (grid_Z_pos 10000 ten_thousand) as P.
  set (N := trapezoid grid (map (fun z => wexp (ls z)) grid)) in P.
  set (f := fun z => wexp (ls z) / N).
  assert (E : cdf = map (fun x => x / last (cumulative_trapezoid grid (map f grid)) 0) (cumulative_trapezoid grid (map f grid))).
  { unfold redshift_cdf. cbv zeta. rewrite (map_map _ (fun p => p / _)). reflexivity. }
  assert (L : last (cumulative_trapezoid grid (map f grid)) 0 = 1).
  { unfold cumulative_trapezoid. rewrite cum_last by now rewrite map_length.
    rewrite (trapezoid_ext _ f (fun z => / N * wexp (ls z))) by (intros; unfold f, Rdiv; ring).
    rewrite trapezoid_scale. fold N. field. lra. }
  rewrite L in E.
  assert (E' : cdf = cumulative_trapezoid grid (map f grid)).
  { rewrite E. rewrite <- map_id. apply map_ext. intros. field. }
  rewrite E'. split; [|split; [|split; [reflexivity|exact L]]].
  - unfold cumulative_trapezoid. cbn [length]. rewrite cumtrapz_length by now rewrite map_length.
    rewrite linspace_length. pose proof ten_thousand1. lia.
  - unfold cumulative_trapezoid. apply cum_inc.
    + apply linspace_inc; [auto|exact ten_thousand].
    + intros x _. unfold f. apply Rmult_le_pos; [apply wexp_nonneg|]. left. now apply Rinv_0_lt_compat.
    + intros x Hx. unfold f. apply Rdiv_lt_0_compat; auto. apply ls_pos.
      assert (I : inc1 grid) by (apply linspace_inc; [auto|exact ten_thousand]).
      assert (H0 : hd 0 grid = 0) by (apply linspace_hd; exact ten_thousand1).
      destruct grid as [|g0 gs] eqn:EG; [destruct Hx|]. cbn [hd tl] in *. subst g0. now apply (inc1_head _ _ _ I).
Qed.
Theorem sample_ok u : 0 <= u <= 1 -> 0 <= sample u <= z_max /\ interp (sample u) grid cdf = u.
Proof.
  intros Hu. destruct cdf_facts as (L & I & H0 & H1).
  assert (I' : inc2 (combine cdf grid)) by (rewrite <- swap_combine; now apply inc2_swap).
  assert (L2 : (2 <= length cdf)%nat) by (rewrite <- L, linspace_length; exact ten_thousand).
  destruct (interp_inside cdf grid (eq_sym L) L2 I' u) as (_ & B & R); [rewrite H0, H1; lra|].
  rewrite linspace_hd in B by exact ten_thousand1. rewrite linspace_last in B by exact ten_thousand. split; [exact B|exact R].
Qed.
Theorem sample_increasing u v : 0 <= u -> u < v -> v <= 1 -> sample u < sample v.
Proof.
  intros H0' H1' H2'. destruct cdf_facts as (L & I & H0 & H1).
  assert (I' : inc2 (combine cdf grid)) by (rewrite <- swap_combine; now apply inc2_swap).
  assert (L2 : (2 <= length cdf)%nat) by (rewrite <- L, linspace_length; exact ten_thousand).
  apply (interp_strict cdf grid (eq_sym L) L2 I'); rewrite ?H0, ?H1; lra.
Qed.
End Red.

Lemma trapezoid_lt : forall xs (f g : R -> R), inc1 xs -> (2 <= length xs)%nat -> (forall x, In x xs -> f x <= g x) ->
  (exists z, In z xs /\ f z < g z) -> trapezoid xs (map f xs) < trapezoid xs (map g xs).
Proof.
  intros xs f g Hi HL Hle (z & Hin & Hlt).
  assert (P : 0 < trapezoid xs (map (fun x => g x - f x) xs)).
  { apply (trapezoid_pos xs (fun x => g x - f x) z); auto; [|lra]. intros x Hx. specialize (Hle x Hx). lra. }
  assert (E : forall ys, trapezoid ys (map (fun x => g x - f x) ys) = trapezoid ys (map g ys) - trapezoid ys (map f ys)).
  { induction ys as [|x [|x' t] IH]; try (simpl; ring).
    change (trapezoid (x :: x' :: t) (map ?h (x :: x' :: t))) with ((x' - x) * (h x' + h x) / 2 + trapezoid (x' :: t) (map h (x' :: t))).
    cbv beta. rewrite IH.
    change (trapezoid (x :: x' :: t) (map g (x :: x' :: t))) with ((x' - x) * (g x' + g x) / 2 + trapezoid (x' :: t) (map g (x' :: t))).
    change (trapezoid (x :: x' :: t) (map f (x :: x' :: t))) with ((x' - x) * (f x' + f x) / 2 + trapezoid (x' :: t) (map f (x' :: t))).
    field. }
  rewrite E in P. lra.
Qed.
