From Coq Require Import String Reals List Lra Lia Arith Permutation.
From Verif Require Import Model_X Spec_X Proofs_X Spec_MonteCarlo Proofs_MonteCarlo Model_Guru Proofs_Guru Model_Neural Spec_Neural.
Import ListNotations.
Open Scope R_scope.

(** ** columns by name *)
Lemma index_of_named ps : forall x name i, length x = length ps -> index_of ps name = Some i ->
  named ps x name = Some (nth i x NaN).
Proof.
  unfold named. induction ps as [|p ps IH]; intros x name i L H; [discriminate|].
  destruct x as [|a x]; [discriminate|]. cbn in *. destruct (String.eqb p name) eqn:E.
  - injection H as <-. reflexivity.
  - destruct (index_of ps name) as [j|] eqn:Ej; [|discriminate]. injection H as <-.
    apply IH; auto.
Qed.
Lemma index_of_none_named ps : forall x name, length x = length ps -> index_of ps name = None ->
  named ps x name = None.
Proof.
  unfold named. induction ps as [|p ps IH]; intros x name L H; [reflexivity|].
  destruct x as [|a x]; [discriminate|]. cbn in *. destruct (String.eqb p name) eqn:E; [discriminate|].
  destruct (index_of ps name) as [j|] eqn:Ej; [discriminate|]. apply IH; auto.
Qed.
Lemma map_opt_columns ps names x : length x = length ps ->
  network_input ps names x = option_map (fun idx => columns idx x) (map_opt (index_of ps) names).
Proof.
  intros L. unfold network_input, columns. induction names as [|n names IH]; cbn [map_opt]; auto.
  rewrite IH. destruct (index_of ps n) as [i|] eqn:E.
  - rewrite (index_of_named _ _ _ _ L E). destruct (map_opt (index_of ps) names); reflexivity.
  - rewrite (index_of_none_named _ _ _ L E). reflexivity.
Qed.
Lemma shuffle_named ps names x : ps <> [] -> length x = length ps ->
  network_input ps names x = option_map (fun idx => columns idx x) (shuffle_indices ps names).
Proof. intros H L. rewrite map_opt_columns by auto. destruct ps; [congruence|reflexivity]. Qed.
Lemma index_of_In ps name : In name ps <-> exists i, index_of ps name = Some i.
Proof.
  induction ps as [|p ps IH]; cbn; [split; [intros []|intros (i & H); discriminate]|].
  destruct (String.eqb_spec p name) as [->|N].
  - split; eauto.
  - rewrite IH. split.
    + intros [E|(i & E)]; [congruence|]. rewrite E. cbn. eauto.
    + intros (i & E). destruct (index_of ps name); [|discriminate]. eauto.
Qed.
Lemma shuffle_total ps names : (exists idx, shuffle_indices ps names = Some idx) <-> ps <> [] /\ forall n, In n names -> In n ps.
Proof.
  assert (M : (exists idx, map_opt (index_of ps) names = Some idx) <-> forall n, In n names -> In n ps).
  { induction names as [|n names IH]; cbn [map_opt].
    - split; [intros _ n []|eauto].
    - split.
      + intros (idx & E). destruct (index_of ps n) as [i|] eqn:Ei; [|discriminate].
        destruct (map_opt (index_of ps) names) eqn:Em; [|discriminate].
        intros m [<-|Hm]; [apply index_of_In; eauto|]. apply IH; eauto.
      + intros H. destruct (proj1 (index_of_In ps n)) as (i & Ei); [apply H; now left|]. rewrite Ei.
        destruct (proj2 IH) as (idx & E); [intros m Hm; apply H; now right|]. rewrite E. eauto. }
  destruct ps as [|p ps].
  - cbn. split; [intros (i & H); discriminate|]. intros [H _]. congruence.
  - rewrite <- M. unfold shuffle_indices. split; [intros H; split; auto; discriminate|tauto].
Qed.

Lemma dget_permutation {A} (l l' : list (string * A)) k : NoDup (map fst l) -> Permutation l l' -> dget l k = dget l' k.
Proof.
  intros N P. induction P as [|[a v] l l' P IH|[a v] [b w] l|l1 l2 l3 P1 IH1 P2 IH2]; cbn; auto.
  - cbn in N. inversion N; subst. rewrite IH; auto.
  - cbn in N. inversion N as [|? ? N1 N2]; subst.
    destruct (String.eqb_spec b k), (String.eqb_spec a k); auto. subst. elim N1. now left.
  - rewrite IH1, IH2; auto. eapply Permutation_NoDup; [apply Permutation_map, P1|auto].
Qed.

(** ** values *)
Lemma xexp_term a b l : fin_or_ninf l -> xexp (xadd (Fin a) l) = Fin (exp a * wexp l) /\
  xexp (xadd (xadd (Fin a) (Fin b)) l) = Fin (exp a * exp b * wexp l).
Proof.
  destruct l; cbn; try tauto; intros _.
  - rewrite !exp_plus. auto.
  - split; f_equal; ring.
Qed.
Lemma xsum_fin l : xsum (map Fin l) = Fin (rsum l).
Proof. induction l as [|a l IH]; [reflexivity|]. cbn [map xsum fold_right rsum]. fold (xsum (map Fin l)). now rewrite IH. Qed.
Lemma wexp_logsumexp l : List.Forall fin_or_ninf l -> fin_or_ninf (logsumexp l) /\ wexp (logsumexp l) = rsum (map wexp l).
Proof. intros H. rewrite logsumexp_fin by auto. apply xln_nonneg_wexp, rsum_wexp_nonneg. Qed.

(** both estimators, for values [vals c] that are finite or -inf *)
Definition generic_mean (T : R) (n : nat) (norm : ndist -> R) (vals : ncomponent -> list X) (mix : list ncomponent) : X :=
  xmul (xdiv (Fin T) (Fin (INR n)))
    (xsum (map (fun c => xexp (xadd (xadd (Fin (nc_log_scale c)) (Fin (norm (nc_dist c)))) (logsumexp (vals c)))) mix)).
Lemma generic_mean_spec T n norm vals f mix : (0 < n)%nat ->
  (forall c, In c mix -> length (nc_samples c) = n) ->
  (forall c, In c mix -> List.Forall fin_or_ninf (vals c) /\ map wexp (vals c) = map f (nc_samples c)) ->
  generic_mean T n norm vals mix = Fin (expected_count T (fun d => exp (norm d)) f mix).
Proof.
  intros Hn L H. unfold generic_mean, expected_count.
  rewrite xdiv_fin by (apply not_0_INR; lia).
  rewrite (map_ext_in _ (fun c => Fin (INR n * (exp (nc_log_scale c) * exp (norm (nc_dist c)) * mean (map f (nc_samples c)))))).
  - rewrite <- (map_map (fun c => INR n * _) Fin), xsum_fin. cbn [xmul]. f_equal.
    rewrite rsum_map_scale. field. apply not_0_INR; lia.
  - intros c Hc. destruct (H c Hc) as [F E]. destruct (wexp_logsumexp _ F) as [F' W].
    rewrite (proj2 (xexp_term _ _ _ F')), W, E. f_equal. unfold mean. rewrite map_length, (L c Hc).
    field. apply not_0_INR; lia.
Qed.

Lemma variance_term a n l : (0 < n)%nat -> length l = n -> List.Forall fin_or_ninf l ->
  xsub (xexp (xadd (Fin (a - 2 * ln (INR n))) (logsumexp (map (xmul (Fin 2)) l))))
       (xexp (xadd (Fin (a - 3 * ln (INR n))) (xmul (Fin 2) (logsumexp l))))
  = Fin (exp a * (population_variance (map wexp l) / INR n)).
Proof.
  intros Hn L F. assert (Hp : 0 < INR n) by (apply lt_0_INR; lia).
  assert (F2 : List.Forall fin_or_ninf (map (xmul (Fin 2)) l)).
  { apply Forall_map. eapply Forall_impl; [|exact F]. intros x. apply xmul2_fin_or_ninf. }
  destruct (wexp_logsumexp _ F2) as [G2 W2]. destruct (wexp_logsumexp _ F) as [G1 W1].
  rewrite (proj1 (xexp_term _ 0 _ G2)), W2.
  rewrite (proj1 (xexp_term _ 0 _ (xmul2_fin_or_ninf _ G1))), wexp_xmul2, W1 by auto.
  rewrite map_map, (map_ext_in (fun x => wexp (xmul (Fin 2) x)) (fun x => wexp x * wexp x)).
  2:{ intros x Hx. apply wexp_xmul2. rewrite Forall_forall in F. auto. }
  cbn [xsub xopp xadd]. f_equal. unfold population_variance. rewrite rsum_sq_dev, !map_length, L, map_map.
  unfold mean. rewrite map_length, L. unfold Rminus. rewrite !exp_plus, !exp_Ropp.
  replace (2 * ln (INR n)) with (ln (INR n) + ln (INR n)) by ring.
  replace (3 * ln (INR n)) with (ln (INR n) + (ln (INR n) + ln (INR n))) by ring.
  rewrite !exp_plus, exp_ln by auto. field. lra.
Qed.
Lemma generic_variance_spec T n norm vals f mix : (0 < n)%nat -> 0 < T ->
  (forall c, In c mix -> length (nc_samples c) = n) ->
  (forall c, In c mix -> List.Forall fin_or_ninf (vals c) /\ map wexp (vals c) = map f (nc_samples c)) ->
  xsum (map (fun c => xsub
     (xexp (xadd (Fin (2 * ln T + 2 * nc_log_scale c + 2 * norm (nc_dist c) - 2 * ln (INR n))) (logsumexp (map (xmul (Fin 2)) (vals c)))))
     (xexp (xadd (Fin (2 * ln T + 2 * nc_log_scale c + 2 * norm (nc_dist c) - 3 * ln (INR n))) (xmul (Fin 2) (logsumexp (vals c)))))) mix)
  = Fin (count_variance T (fun d => exp (norm d)) f mix).
Proof.
  intros Hn HT L H. unfold count_variance. rewrite <- xsum_fin, map_map. f_equal. apply map_ext_in. intros c Hc.
  destruct (H c Hc) as [F E]. rewrite (variance_term _ n); auto.
  - rewrite E, (L c Hc). f_equal. f_equal. cbn [pow].
    replace (2 * ln T + 2 * nc_log_scale c + 2 * norm (nc_dist c))
      with ((ln T + nc_log_scale c + norm (nc_dist c)) + (ln T + nc_log_scale c + norm (nc_dist c))) by ring.
    rewrite !exp_plus, exp_ln by auto. ring.
  - transitivity (length (map wexp (vals c))); [now rewrite map_length|]. rewrite E, map_length. auto.
Qed.
Lemma count_variance_nonneg T norm f mix : 0 <= count_variance T norm f mix.
Proof.
  unfold count_variance. apply rsum_nonneg, Forall_map, Forall_forall. intros c _.
  apply Rmult_le_pos; [rewrite <- Rsqr_pow2; apply Rle_0_sqr|].
  unfold population_variance. rewrite map_length.
  assert (P : 0 <= / INR (length (nc_samples c))).
  { destruct (nc_samples c); [cbn; rewrite Rinv_0; lra|]. left. apply Rinv_0_lt_compat, lt_0_INR. cbn; lia. }
  apply Rmult_le_pos; auto. apply Rmult_le_pos; auto. apply rsum_sq_dev_nonneg.
Qed.

Definition norm_or_0 (d : ndist) : R := match redshift_log_norm d with Fin r => r | _ => 0 end.
Lemma first_powerlaw_only ms : (forall l, ~ In (MadauDickinsonZ l) ms) -> first_powerlaw ms = redshift_norm_of ms.
Proof.
  induction ms as [|m ms IH]; cbn; auto. intros H. destruct m; auto.
  - elim (H log_norm). now left.
  - apply IH. intros l Hl. apply (H l). now right.
Qed.
Lemma only_powerlaw_norm d : only_powerlaw d -> redshift_log_norm d = redshift_norm d.
Proof.
  destruct d; cbn [only_powerlaw redshift_log_norm redshift_norm].
  - apply first_powerlaw_only.
  - intros ->. reflexivity.
Qed.
Lemma xmul_fin a b : xmul (Fin a) (Fin b) = Fin (a * b). Proof. reflexivity. Qed.
Lemma xsub_fin a b : xsub (Fin a) (Fin b) = Fin (a - b). Proof. reflexivity. Qed.
Lemma xadd_fin a b : xadd (Fin a) (Fin b) = Fin (a + b). Proof. reflexivity. Qed.

Section Both.
Variable network : list X -> X.
Variables (ps names : list string) (idx : list nat).
Hypothesis Hidx : shuffle_indices ps names = Some idx.
Lemma input_is_columns x inp : length x = length ps -> network_input ps names x = Some inp -> columns idx x = inp.
Proof.
  intros L H. assert (N : ps <> []) by (destruct ps; [discriminate|congruence]).
  rewrite (shuffle_named _ _ _ N L), Hidx in H. cbn in H. congruence.
Qed.
Variable f : list X -> R.
Definition answers (mix : list ncomponent) := forall c x, In c mix -> In x (nc_samples c) ->
  length x = length ps /\ exists inp, network_input ps names x = Some inp /\ network inp = Fin (f x).
Lemma vt_vals mix c : answers mix -> In c mix ->
  List.Forall fin_or_ninf (map (log_vt network idx) (nc_samples c)) /\
  map wexp (map (log_vt network idx) (nc_samples c)) = map (fun x => exp (f x)) (nc_samples c).
Proof.
  intros H Hc. assert (K : forall x, In x (nc_samples c) -> log_vt network idx x = Fin (f x)).
  { intros x Hx. destruct (H c x Hc Hx) as (L & inp & E & N). unfold log_vt. now rewrite (input_is_columns _ _ L E). }
  split.
  - apply Forall_map, Forall_forall. intros x Hx. rewrite K by auto. exact I.
  - rewrite map_map. apply map_ext_in. intros x Hx. now rewrite K.
Qed.
Lemma pdet_vals mix c : answers mix -> In c mix ->
  List.Forall fin_or_ninf (map (log_pdet network idx) (nc_samples c)) /\
  map wexp (map (log_pdet network idx) (nc_samples c)) = map (fun x => Rmax 0 (f x)) (nc_samples c).
Proof.
  intros H Hc. assert (K : forall x, In x (nc_samples c) -> fin_or_ninf (log_pdet network idx x) /\ wexp (log_pdet network idx x) = Rmax 0 (f x)).
  { intros x Hx. destruct (H c x Hc Hx) as (L & inp & E & N). unfold log_pdet. rewrite (input_is_columns _ _ L E), N.
    cbn [xleb]. destruct (Rle_dec (f x) 0) as [Hle|Hgt].
    - split; [exact I|]. cbn. rewrite Rmax_left; auto.
    - rewrite Rmax_right by lra. apply xln_nonneg_wexp. lra. }
  split.
  - apply Forall_map, Forall_forall. intros x Hx. apply K, Hx.
  - rewrite map_map. apply map_ext_in. intros x Hx. now apply K.
Qed.
Variables (T : R) (n : nat) (mix : list ncomponent).
Hypotheses (HT : 0 < T) (Hn : (0 < n)%nat) (HL : forall c, In c mix -> length (nc_samples c) = n).
Hypothesis HA : answers mix.
Lemma expected_count_ext norm norm' g : (forall c, In c mix -> norm (nc_dist c) = norm' (nc_dist c)) ->
  expected_count T norm g mix = expected_count T norm' g mix /\ count_variance T norm g mix = count_variance T norm' g mix.
Proof.
  intros H. unfold expected_count, count_variance. split; [f_equal|]; f_equal; apply map_ext_in; intros c Hc; now rewrite H.
Qed.
Lemma vt_mean_spec : vt_poisson_mean network T n idx mix = Fin (expected_count T (fun _ => 1) (fun x => exp (f x)) mix).
Proof.
  rewrite (proj1 (expected_count_ext _ (fun d => exp ((fun _ => 0) d)) _ (fun c _ => eq_sym exp_0))).
  rewrite <- (generic_mean_spec T n (fun _ => 0) (fun c => map (log_vt network idx) (nc_samples c))); auto.
  2:{ intros c Hc. now apply (vt_vals mix). }
  unfold vt_poisson_mean, generic_mean. f_equal. f_equal. apply map_ext. intros c. now rewrite xadd_fin, Rplus_0_r.
Qed.
Lemma ln_n : xln (Fin (INR n)) = Fin (ln (INR n)) /\ xln (Fin T) = Fin (ln T).
Proof. split; apply xln_pos; auto. apply lt_0_INR; lia. Qed.
Lemma vt_variance_spec : vt_variance network T n idx mix = Fin (count_variance T (fun _ => 1) (fun x => exp (f x)) mix).
Proof.
  rewrite (proj2 (expected_count_ext _ (fun d => exp ((fun _ => 0) d)) _ (fun c _ => eq_sym exp_0))).
  rewrite <- (generic_variance_spec T n (fun _ => 0) (fun c => map (log_vt network idx) (nc_samples c))); auto.
  2:{ intros c Hc. now apply (vt_vals mix). }
  unfold vt_variance. destruct ln_n as [-> ->]. f_equal. apply map_ext. intros c.
  cbv beta zeta. rewrite !xmul_fin, !xsub_fin, !xadd_fin. f_equal; f_equal; f_equal; f_equal; ring.
Qed.
Variable norm : ndist -> R.
Hypothesis HZ : forall c, In c mix -> only_powerlaw (nc_dist c) /\ redshift_norm (nc_dist c) = Fin (norm (nc_dist c)).
Lemma HZ' c : In c mix -> redshift_log_norm (nc_dist c) = Fin (norm (nc_dist c)).
Proof. intros Hc. destruct (HZ c Hc) as [O E]. now rewrite only_powerlaw_norm. Qed.
Lemma pdet_mean_spec : pdet_poisson_mean network T n idx mix = Fin (expected_count T (fun d => exp (norm d)) (fun x => Rmax 0 (f x)) mix).
Proof.
  rewrite <- (generic_mean_spec T n norm (fun c => map (log_pdet network idx) (nc_samples c))); auto.
  2:{ intros c Hc. now apply (pdet_vals mix). }
  unfold pdet_poisson_mean, generic_mean. f_equal. f_equal. apply map_ext_in. intros c Hc. now rewrite HZ'.
Qed.
Lemma pdet_variance_spec : pdet_variance network T n idx mix = Fin (count_variance T (fun d => exp (norm d)) (fun x => Rmax 0 (f x)) mix).
Proof.
  rewrite <- (generic_variance_spec T n norm (fun c => map (log_pdet network idx) (nc_samples c))); auto.
  2:{ intros c Hc. now apply (pdet_vals mix). }
  unfold pdet_variance. destruct ln_n as [-> ->]. f_equal. apply map_ext_in. intros c Hc. rewrite (HZ' c Hc).
  cbv beta zeta. rewrite !xmul_fin, !xsub_fin, !xadd_fin. f_equal; f_equal; f_equal; f_equal; ring.
Qed.
End Both.
