(** Lemmas for the loader of posterior samples. *)
From Coq Require Import String.
From Coq Require Import Reals List Bool Arith ZArith Lra Lia.
From Coquelicot Require Import Coquelicot.
From Verif Require Import Model_X Spec_X Model_Mass Model_Transform Proofs_Transform Model_Injections Spec_Injections Proofs_Injections Model_Discrete Spec_Discrete.
Import ListNotations.
Open Scope R_scope.

(** ** Jacobians *)
Definition flat_factor (mp : mass_prior_t) (z m1 m2 : R) : R :=
  match mp with
  | FlatSourceComponents => 1
  | FlatDetectorComponents => (1 + z) * (1 + z)
  | FlatDetectorChirpRatio => (1 + z) / (primary_over_chirp (m2 / m1) * m1)
  end.
Lemma flat_factor_pos mp z m1 m2 : 0 < 1 + z -> 0 < m1 -> 0 < m2 -> 0 < flat_factor mp z m1 m2.
Proof.
  intros Hz H1 H2. assert (0 < m2 / m1) by pos. pose proof (primary_over_chirp_pos _ H) as P.
  destruct mp; cbn [flat_factor]; [|pos|lra]. apply Rmult_lt_0_compat; auto.
Qed.
Lemma ratio_derive f g x df dg : f x <> 0 -> is_derive f x df -> is_derive g x dg ->
  is_derive (fun t => g t / f t) x ((dg * f x - g x * df) / (f x * f x)).
Proof.
  intros N Df Dg. evar_last; [apply (is_derive_div g f x dg df Dg Df N)|]. cbn. field. auto.
Qed.
Lemma chirp_derive f g x df dg k : 0 < f x -> 0 < g x -> is_derive f x df -> is_derive g x dg ->
  let q := g x / f x in
  is_derive (fun t => f t * k / primary_over_chirp (g t / f t)) x
    (k * (df / primary_over_chirp q - f x * (1/5 / (1 + q) - 3/5 / q) / primary_over_chirp q * ((dg * f x - g x * df) / (f x * f x)))).
Proof.
  intros Pf Pg Df Dg q. assert (Pq : 0 < q) by (unfold q; pos). pose proof (primary_over_chirp_pos q Pq) as PP.
  pose proof (ratio_derive f g x df dg ltac:(lra) Df Dg) as DQ.
  pose proof (primary_over_chirp_derive q Pq) as DP. apply is_derive_Reals in DP.
  pose proof (is_derive_comp primary_over_chirp (fun t => g t / f t) x _ _ DP DQ) as DC. 
  assert (DK : is_derive (fun t => f t * k) x (df * k)).
  { evar_last; [apply (is_derive_mult f (fun _ => k) x df 0 Df (is_derive_const k x) Rmult_comm)|]. unfold plus, mult; cbn. ring. }
  evar_last; [apply (is_derive_div (fun t => f t * k) (fun t => primary_over_chirp (g t / f t)) x _ _ DK DC)|].
  - fold q. lra.
  - unfold scal; cbn; unfold mult; cbn. fold q. set (P := primary_over_chirp q) in *. clearbody P. set (D := 1/5 / (1 + q) - 3/5 / q).
    set (Q := (dg * f x - g x * df) / (f x * f x)). clearbody D Q. field. lra.
Qed.
Lemma scale_derive f x df k : is_derive f x df -> is_derive (fun t => f t * k) x (df * k).
Proof. intros Df. evar_last; [apply (is_derive_mult f (fun _ => k) x df 0 Df (is_derive_const k x) Rmult_comm)|]. unfold plus, mult; cbn. ring. Qed.
Lemma flat_jacobian mp c z u v J : 0 < 1 + z -> 0 < source_mass_1 c z u v -> 0 < source_mass_2 c z u v ->
  jacobian (source_mass_1 c z) (source_mass_2 c z) u v J ->
  jacobian (flat_1 mp c z) (flat_2 mp c z) u v (J * flat_factor mp z (source_mass_1 c z u v) (source_mass_2 c z u v)).
Proof.
  intros Hz H1 H2 [fu [fv [gu [gv [D1 [D2 [D3 [D4 ->]]]]]]]]. pose proof (flat_factor_pos mp z _ _ Hz H1 H2) as PF.
  apply is_derive_Reals in D1, D2, D3, D4. unfold jacobian, flat_1, flat_2.
  remember (source_mass_1 c z) as F. remember (source_mass_2 c z) as G. clear HeqF HeqG.
  destruct mp; cbn [flat_factor] in *.
  - exists (fu * (1 + z)), (fv * (1 + z)), (gu * (1 + z)), (gv * (1 + z)).
    do 4 (split; [apply is_derive_Reals, scale_derive; assumption|]).
    rewrite <- (Rabs_right ((1 + z) * (1 + z))) at 1 by (apply Rle_ge, Rlt_le; nra). rewrite <- Rabs_mult. f_equal. ring.
  - pose proof (chirp_derive (fun x => F x v) (fun x => G x v) u fu gu (1 + z) H1 H2 D1 D3) as E1.
    pose proof (chirp_derive (fun y => F u y) (fun y => G u y) v fv gv (1 + z) H1 H2 D2 D4) as E2. cbv beta zeta in E1, E2.
    pose proof (ratio_derive (fun x => F x v) (fun x => G x v) u fu gu ltac:(lra) D1 D3) as E3.
    pose proof (ratio_derive (fun y => F u y) (fun y => G u y) v fv gv ltac:(lra) D2 D4) as E4. cbv beta in E3, E4.
    eexists _, _, _, _. do 4 (split; [apply is_derive_Reals; eassumption|]).
    rewrite <- (Rabs_right (_ / _)) at 1 by (apply Rle_ge, Rlt_le; exact PF). rewrite <- Rabs_mult. f_equal.
    assert (Pq : 0 < G u v / F u v) by pos. pose proof (primary_over_chirp_pos _ Pq) as PP.
    set (P := primary_over_chirp (G u v / F u v)) in *. set (D := 1/5 / (1 + G u v / F u v) - 3/5 / (G u v / F u v)). clearbody P D. field. lra.
  - exists fu, fv, gu, gv. do 4 (split; [apply is_derive_Reals; assumption|]). ring.
Qed.
Lemma source_mass_1_pos c z u v : 0 < 1 + z -> 0 < u -> 0 < v -> 0 < source_mass_1 c z u v.
Proof. intros Hz Hu Hv. pose proof (primary_over_chirp_pos v Hv). destruct c; cbn [source_mass_1]; try assumption; pos. Qed.
Lemma source_mass_2_pos c z u v : 0 < 1 + z -> 0 < u -> 0 < v -> 0 < source_mass_2 c z u v.
Proof. intros Hz Hu Hv. pose proof (source_mass_1_pos c z u v Hz Hu Hv). destruct c; cbn [source_mass_2]; try assumption; pos. Qed.

(** ** What the code adds *)
Definition added (mp : mass_prior_t) (c : mass_coords) (z u v : R) : R :=
  let q := source_mass_2 c z u v / source_mass_1 c z u v in
  match c with
  | SourceMasses | SourceRatio =>
      (match mp with FlatDetectorComponents => 2 * ln (1 + z) | FlatDetectorChirpRatio => - (ln u - ln (1 + z) + ln (primary_over_chirp q)) | FlatSourceComponents => 0 end)
      + (match c with SourceRatio => ln u | _ => 0 end)
  | DetectedMasses | DetectedRatio =>
      (match mp with FlatDetectorChirpRatio => - (ln u + ln (primary_over_chirp q)) | _ => 0 end)
      + (match c with DetectedRatio => ln u | _ => 0 end)
  | ChirpRatio | DetectedChirpRatio => ln (primary_over_chirp q)
  end.
Lemma has_key_dget {A} (d : list (string * A)) k : has_key d k = match dget d k with Some _ => true | None => false end.
Proof.
  unfold has_key. induction d as [|[k' v] d IH]; [reflexivity|]. cbn [existsb dget fst]. destruct (String.eqb k' k) eqn:E; cbn; auto.
Qed.
Lemma get_q_spec self r c z u v : 0 < 1 + z -> 0 < u -> 0 < v -> row_has self r c z u v ->
  get_q self r = Some (Fin (source_mass_2 c z u v / source_mass_1 c z u v)).
Proof.
  intros Hz Hu Hv [G1 [G2 [G3 [G4 G5]]]]. unfold get_q, col. rewrite !has_key_dget.
  pose proof (source_mass_1_pos c z u v Hz Hu Hv) as P1.
  destruct (dget r (alias self "mass_ratio")) as [q|] eqn:Eq.
  - now rewrite (G4 q eq_refl).
  - destruct (dget r (alias self "mass_1_source")) as [m|] eqn:Em.
    + destruct (G5 m eq_refl) as [-> E]. rewrite (E eq_refl). cbn [bind]. now rewrite xdiv_Fin by lra.
    + destruct c; cbn [first_name second_name] in *; try congruence.
      rewrite G1, G2. cbn [bind]. rewrite xdiv_Fin by lra. do 2 f_equal. cbn. field. lra.
Qed.
Lemma xlog1p_Fin z : 0 < 1 + z -> xlog1p (Fin z) = Fin (ln (1 + z)).
Proof. intros H. unfold xlog1p. cbn [xadd xln]. destruct (Rlt_dec 0 (1 + z)); [reflexivity|lra]. Qed.
Lemma xln_pos x : 0 < x -> xln (Fin x) = Fin (ln x).
Proof. intros H. cbn [xln]. destruct (Rlt_dec 0 x); [reflexivity|lra]. Qed.
Lemma wants_In k ps : wants k ps = true <-> In k ps.
Proof. unfold wants. rewrite existsb_exists. split; [intros [x [I E]]; apply String.eqb_eq in E; now subst|intros I; exists k; split; [auto|apply String.eqb_refl]]. Qed.
Lemma asks_true ps c k : asks_for ps c -> In k mass_parameters -> (k = first_name c \/ k = second_name c) -> wants k ps = true.
Proof. intros H I E. apply wants_In. apply H; auto. Qed.
Lemma asks_false ps c k : asks_for ps c -> In k mass_parameters -> k <> first_name c -> k <> second_name c -> wants k ps = false.
Proof. intros H I N1 N2. apply not_true_iff_false. intros W. apply wants_In in W. apply H in W; auto. tauto. Qed.
Ltac ask H k :=
  let W := fresh "W" in
  first [pose proof (asks_true _ _ k H ltac:(cbn; tauto) ltac:(cbn; tauto)) as W
        | pose proof (asks_false _ _ k H ltac:(cbn; tauto) ltac:(discriminate) ltac:(discriminate)) as W];
  rewrite ?W; clear W.
Lemma mass_log_prior_spec self mp c z u v r ps : mass_prior self = Some mp -> 0 < 1 + z -> 0 < u -> 0 < v -> asks_for ps c ->
  In "redshift"%string ps -> row_has self r c z u v -> mass_log_prior self ps r = Some (Fin (added mp c z u v)).
Proof.
  intros Hm Hz Hu Hv Ha Hr Hrow. unfold mass_log_prior. rewrite Hm, (get_q_spec self r c z u v Hz Hu Hv Hrow). cbn [bind].
  apply wants_In in Hr. rewrite Hr. cbn [negb]. destruct Hrow as [G1 [G2 [G3 _]]]. unfold col. rewrite G3. cbn [bind].
  assert (Pq : 0 < source_mass_2 c z u v / source_mass_1 c z u v).
  { pose proof (source_mass_1_pos c z u v Hz Hu Hv). pose proof (source_mass_2_pos c z u v Hz Hu Hv). pos. }
  pose proof (primary_over_chirp_pos _ Pq) as PP.
  unfold added. set (q := source_mass_2 c z u v / source_mass_1 c z u v) in *. clearbody q.
  rewrite chirp_jacobian_fin by auto. rewrite !xln_pos by auto. rewrite xlog1p_Fin by auto.
  destruct c; ask Ha "mass_1_source"%string; ask Ha "mass_1"%string; ask Ha "mass_ratio"%string; ask Ha "chirp_mass"%string; ask Ha "chirp_mass_detector"%string;
    cbn [first_name second_name] in *; rewrite ?G1; cbn [bind orb]; rewrite ?xln_pos by auto; destruct mp; cbn [is_detector_components is_chirp_ratio xmul xadd xsub xopp];
    unfold xsub; cbn [xadd xopp]; do 2 f_equal; ring.
Qed.
(** logs of the Jacobians *)
Definition true_log (mp : mass_prior_t) (c : mass_coords) (z u v : R) : R :=
  ln (mass_jacobian c z u v * flat_factor mp z (source_mass_1 c z u v) (source_mass_2 c z u v)).
Lemma flat_correct mp c z u v : 0 < 1 + z -> 0 < u -> 0 < v ->
  let J := mass_jacobian c z u v * flat_factor mp z (source_mass_1 c z u v) (source_mass_2 c z u v) in
  jacobian (flat_1 mp c z) (flat_2 mp c z) u v J /\ 0 < J.
Proof.
  intros Hz Hu Hv J. destruct (mass_jacobian_correct c z u v Hz Hu Hv) as [HJ PJ].
  pose proof (source_mass_1_pos c z u v Hz Hu Hv) as P1. pose proof (source_mass_2_pos c z u v Hz Hu Hv) as P2.
  split; [now apply flat_jacobian|]. apply Rmult_lt_0_compat; auto. now apply flat_factor_pos.
Qed.
Lemma true_log_value mp c z u v : 0 < 1 + z -> 0 < u -> 0 < v -> let q := source_mass_2 c z u v / source_mass_1 c z u v in
  let L := ln (1 + z) in let LP := ln (primary_over_chirp q) in
  true_log mp c z u v =
    (match c with
     | SourceMasses => 0 | SourceRatio => ln u | DetectedMasses => - 2 * L | DetectedRatio => ln u - 2 * L
     | ChirpRatio => ln u + 2 * LP | DetectedChirpRatio => ln u + 2 * LP - 2 * L end)
    + (match mp with FlatSourceComponents => 0 | FlatDetectorComponents => 2 * L
       | FlatDetectorChirpRatio => L - LP - ln (source_mass_1 c z u v) end).
Proof.
  intros Hz Hu Hv q L LP. unfold true_log.
  pose proof (source_mass_1_pos c z u v Hz Hu Hv) as P1. pose proof (source_mass_2_pos c z u v Hz Hu Hv) as P2.
  destruct (mass_jacobian_correct c z u v Hz Hu Hv) as [_ PJ]. pose proof (flat_factor_pos mp z _ _ Hz P1 P2) as PF.
  rewrite ln_mult by auto. assert (Pq : 0 < q) by (unfold q; pos). pose proof (primary_over_chirp_pos q Pq) as PP.
  pose proof (Rinv_0_lt_compat (1 + z) Hz) as Iz. pose proof (primary_over_chirp_pos v Hv) as PV.
  f_equal.
  - destruct c; cbn [mass_jacobian] in *.
    + apply ln_1.
    + reflexivity.
    + rewrite ln_mult, ln_Rinv by auto. unfold L. ring.
    + unfold Rdiv. rewrite !ln_mult, !ln_Rinv by pos. unfold L. ring.
    + assert (E : q = v) by (unfold q; cbn; field; split; nra). unfold LP. rewrite E. rewrite !ln_mult by pos. ring.
    + assert (E : q = v) by (unfold q; cbn; field; split; [lra|split; [lra|lra]]). unfold LP, L. rewrite E. unfold Rdiv. rewrite !ln_mult, !ln_Rinv by pos. ring.
  - destruct mp; cbn [flat_factor] in *.
    + rewrite ln_mult by auto. unfold L. ring.
    + unfold Rdiv. rewrite ln_mult by (auto; apply Rinv_0_lt_compat, Rmult_lt_0_compat; auto).
      rewrite ln_Rinv by (apply Rmult_lt_0_compat; auto). rewrite ln_mult by auto. unfold L, LP, q, Rdiv. ring.
    + apply ln_1.
Qed.
