(** Property C115: the model of the eccentric population. *)
From Coq Require Import String Reals Lra Lia List Bool.
From Coquelicot Require Import Coquelicot.
From Verif Require Import Model_X Spec_X Proofs_X Spec_Density Proofs_Integral Spec_MonteCarlo Proofs_MonteCarlo Model_Guru Model_Powerlaw Proofs_Powerlaw
     Model_Gauss Proofs_Gauss Model_Constraints Proofs_Constraints
     Model_Joint Spec_Joint Proofs_Joint Proofs_Mixture Model_Mass Proofs_Mass Proofs_MassGrid Model_Spin Proofs_Spin Model_Hybrid Spec_Hybrid Proofs_Hybrid.
Import ListNotations.
Open Scope R_scope.

Lemma wysocki_density {K} (draw : K -> list X) validate alpha mmin mmax m1 m2 : 0 < mmin < mmax -> m1 <> mmin ->
  has_density validate (wysocki_leaf draw validate alpha mmin mmax) [Fin m1; Fin m2]
    (within mmin mmax m1 (within mmin m1 m2 (wexp (powerlaw_log_prob m1 (- alpha) mmin mmax) / (m1 - mmin)))).
Proof.
  intros H Hn. unfold wysocki_leaf. apply leaf2_density; intros S.
  - apply sandwich_region in S. rewrite !within_in by lra.
    unfold wysocki_log_prob, uniform_logpdf. destruct (Rlt_dec (mmin + (m1 - mmin)) m2); [lra|]. destruct (Rlt_dec m2 mmin); [lra|].
    rewrite log_prob_fin by lra. rewrite xln_pos by lra. cbn [xopp xadd wexp]. split; [exact I|].
    rewrite exp_plus, exp_Ropp, exp_ln by lra. reflexivity.
  - unfold within. destruct (Rle_dec mmin m1); [|reflexivity]. destruct (Rle_dec m1 mmax); [|reflexivity].
    destruct (Rle_dec mmin m2); [|reflexivity]. destruct (Rle_dec m2 m1); [|reflexivity]. exfalso.
    assert (T : mass_sandwich (Fin mmin) (Fin mmax) (Fin m1) (Fin m2) = true) by (apply sandwich_region; lra). congruence.
Qed.

Section C115.
Context {K : Type}.
Variable draw : K -> list X.
Variables validate validate_default : bool.
Let model := eccentricity_matters draw validate validate_default.

(** rate times the mass model of Wysocki et al. times a truncated normal, zero elsewhere; the line
    m1 = mmin, where the secondary mass has no room, is left out *)
Theorem C115_density : forall log_rate alpha mmin mmax loc scale low high m1 m2 e,
  0 < mmin < mmax -> 0 < scale -> low < high -> m1 <> mmin ->
  density (model log_rate alpha mmin mmax loc scale low high) (map Fin [m1; m2; e])
  = exp log_rate
    * (within mmin mmax m1 (within mmin m1 m2 (wexp (powerlaw_log_prob m1 (- alpha) mmin mmax) / (m1 - mmin)))
       * truncated_normal loc scale low high e).
Proof.
  intros lr alpha mmin mmax loc scale low high m1 m2 e Hm Hs Hl Hn.
  assert (DE : has_density validate (truncated_normal_leaf draw validate loc scale low high) [Fin e] (truncated_normal loc scale low high e)).
  { apply leaf1_density; [intros _; now apply tn_spec|apply tn_out]. }
  pose proof (joint_mixture validate validate_default lr
    [(_, [Fin m1; Fin m2], _); (_, [Fin e], _)]
    (Forall_cons _ (wysocki_density draw validate alpha mmin mmax m1 m2 Hm Hn : (fun t => has_density validate (fst (fst t)) (snd (fst t)) (snd t)) (_, _, _))
       (Forall_cons _ (DE : (fun t => has_density validate (fst (fst t)) (snd (fst t)) (snd t)) (_, _, _)) (Forall_nil _)))) as D.
  cbn [map fst snd concat app rprod] in D. rewrite Rmult_1_r in D. exact D.
Qed.
(** the total over the region is the rate *)
Theorem C115_total_rate : forall log_rate alpha mmin mmax loc scale low high,
  0 < mmin < mmax -> 0 < scale -> low < high ->
  exists g2 g1,
    (forall m1 m2, mmin < m1 < mmax -> mmin < m2 < m1 ->
       is_RInt (fun e => density (model log_rate alpha mmin mmax loc scale low high) (map Fin [m1; m2; e])) low high (g2 m1 m2))
    /\ (forall m1, mmin < m1 < mmax -> is_RInt (g2 m1) mmin m1 (g1 m1))
    /\ is_RInt g1 mmin mmax (exp log_rate).
Proof.
  intros lr alpha mmin mmax loc scale low high Hm Hs Hl.
  set (w m1 m2 := within mmin mmax m1 (within mmin m1 m2 (wexp (powerlaw_log_prob m1 (- alpha) mmin mmax) / (m1 - mmin)))).
  exists (fun m1 m2 => exp lr * w m1 m2), (fun m1 => exp lr * wexp (powerlaw_log_prob m1 (- alpha) mmin mmax)). split; [|split].
  - intros m1 m2 H1 H2. apply (is_RInt_ext_R (fun e => exp lr * w m1 m2 * truncated_normal loc scale low high e)); [lra| |].
    + intros e _. rewrite C115_density by (auto; lra). unfold w. ring.
    + now apply is_RInt_scal1, tn_one.
  - intros m1 H1. apply (is_RInt_ext_R (fun _ => exp lr * (wexp (powerlaw_log_prob m1 (- alpha) mmin mmax) / (m1 - mmin)))); [lra| |].
    + intros m2 H2. unfold w. now rewrite !within_in by lra.
    + apply is_RInt_const_R. field. lra.
  - apply is_RInt_scal1. apply (powerlaw_normalised (- alpha) mmin mmax Hm).
Qed.
(** nothing outside mmin <= m2 <= m1 <= mmax and low <= e <= high *)
Theorem C115_nothing_outside : forall log_rate alpha mmin mmax loc scale low high m1 m2 e,
  0 < mmin < mmax -> 0 < scale -> low < high -> m1 <> mmin ->
  ~ (mmin <= m2 <= m1 /\ m1 <= mmax /\ low <= e <= high) ->
  density (model log_rate alpha mmin mmax loc scale low high) (map Fin [m1; m2; e]) = 0.
Proof.
  intros lr alpha mmin mmax loc scale low high m1 m2 e Hm Hs Hl Hn Ho. rewrite C115_density by auto.
  unfold truncated_normal, within. destruct (Rle_dec mmin m1); [|ring]. destruct (Rle_dec m1 mmax); [|ring].
  destruct (Rle_dec mmin m2); [|ring]. destruct (Rle_dec m2 m1); [|ring]. destruct (Rle_dec low e); [|ring]. destruct (Rle_dec e high); [|ring].
  exfalso. apply Ho. lra.
Qed.
(** the coordinates of an event in the declared order are read by name *)
Theorem C115_columns : forall log_rate alpha mmin mmax loc scale low high (v : string -> R),
  0 < mmin < mmax -> 0 < scale -> low < high -> v "mass_1_source"%string <> mmin ->
  density (model log_rate alpha mmin mmax loc scale low high) (map (fun n => Fin (v n)) ecc_parameters)
  = exp log_rate
    * (within mmin mmax (v "mass_1_source"%string) (within mmin (v "mass_1_source"%string) (v "mass_2_source"%string)
         (wexp (powerlaw_log_prob (v "mass_1_source"%string) (- alpha) mmin mmax) / (v "mass_1_source"%string - mmin)))
       * truncated_normal loc scale low high (v "eccentricity"%string)).
Proof.
  intros lr alpha mmin mmax loc scale low high v Hm Hs Hl Hn.
  exact (C115_density lr alpha mmin mmax loc scale low high (v "mass_1_source"%string) (v "mass_2_source"%string) (v "eccentricity"%string) Hm Hs Hl Hn).
Qed.
(** the parameters declared by the analyses and read by the generator are the arguments of the
    model: given a value for each, the call succeeds and both give the same model *)
Theorem C115_arguments : forall (value : string -> R) names,
  names = ecc_model_parameters \/ names = ecc_genie_model_parameters ->
  call_eccentricity_matters draw validate validate_default (map (fun n => (n, value n)) names)
  = Some (model (value "log_rate") (value "alpha_m") (value "mmin") (value "mmax") (value "loc") (value "scale") (value "low") (value "high"))%string.
Proof. intros value names [-> | ->]; reflexivity. Qed.
(** an unknown argument, or a missing one, is an error *)
Theorem C115_wrong_arguments : forall kw,
  (exists n, In n (map fst kw) /\ ~ In n ecc_model_parameters) \/ (exists n, In n ecc_model_parameters /\ ~ In n (map fst kw)) ->
  call_eccentricity_matters draw validate validate_default kw = None.
Proof.
  intros kw [(n & H1 & H2)|(n & H1 & H2)]; unfold call_eccentricity_matters.
  - replace (forallb _ _) with false; [reflexivity|]. symmetry. apply not_true_is_false. intros H. rewrite forallb_forall in H.
    specialize (H n H1). apply existsb_exists in H as (m & Hm & E). apply String.eqb_eq in E. subst. tauto.
  - rewrite gets_none; [now destruct (forallb _ _)|]. intros H. destruct (H n H1) as [r E]. apply H2. clear -E.
    induction kw as [|[k v] kw IH]; cbn in *; [discriminate|]. destruct (String.eqb k n) eqn:Ek; [left; now apply String.eqb_eq|auto].
Qed.
End C115.
Print Assumptions C115_density.
Print Assumptions C115_columns.
Print Assumptions C115_total_rate.
Print Assumptions C115_nothing_outside.
Print Assumptions C115_arguments.
Print Assumptions C115_wrong_arguments.

(** two masses between five and ten *)
Example C115_nonvacuous : exists r, 0 < r
  /\ density (eccentricity_matters (fun _ : unit => []) true true 0 2 5 10 0 1 0 1) (map Fin [8; 6; 1 / 2]) = r.
Proof.
  eexists. split; [|reflexivity]. rewrite C115_density by lra. rewrite !within_in by lra. rewrite log_prob_fin by lra. cbn [wexp].
  apply Rmult_lt_0_compat; [apply exp_pos|]. apply Rmult_lt_0_compat; [apply Rdiv_lt_0_compat; [apply exp_pos|lra]|].
  unfold truncated_normal. rewrite within_in by lra. apply Rdiv_lt_0_compat; [unfold norm_pdf; apply Rdiv_lt_0_compat; [apply phi_pos|lra]|].
  pose proof (ndtr_incr ((0 - 0) / 1) ((1 - 0) / 1) ltac:(lra)). lra.
Qed.
