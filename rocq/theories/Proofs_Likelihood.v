From Coq Require Import Reals Lra Lia List Bool String Permutation.
From Verif Require Import Model_X Spec_X Proofs_X Model_Jenks Spec_Jenks Proofs_Jenks
     Model_Likelihood Spec_Likelihood.
Import ListNotations.
Open Scope R_scope.

Section P.
Variable D : Type.
Implicit Types (m : model D) (b : bucket D).

Lemma masked_row_lse (lp : D -> X) : forall mask data ref feas,
  List.length data = List.length mask -> List.length ref = List.length mask ->
  List.length feas = List.length mask ->
  xsum (map xexp (where_row mask (map2 xsub (map lp (where_row mask data feas)) ref)
                (map (fun _ => NInf) (map2 xsub (map lp (where_row mask data feas)) ref))))
  = xsum (map (fun p => xexp (xsub (lp (fst p)) (snd p))) (unpad mask (combine data ref))).
Proof.
  unfold where_row, unpad.
  induction mask as [|k mask IH]; intros [|d data] [|r ref] [|f feas]; simpl; intros Hd Hr Hf;
    try discriminate; auto.
  injection Hd as Hd; injection Hr as Hr; injection Hf as Hf.
  specialize (IH data ref feas Hd Hr Hf).
  destruct k; simpl.
  - now rewrite IH.
  - rewrite IH. apply xadd_0_l.
Qed.

Lemma row_term (lp : D -> X) mask data ref feas :
  List.length data = List.length mask -> List.length ref = List.length mask ->
  List.length feas = List.length mask ->
  logsumexp (where_row mask (map2 xsub (map lp (where_row mask data feas)) ref)
                (map (fun _ => NInf) (map2 xsub (map lp (where_row mask data feas)) ref)))
  = event_term lp (unpad mask (combine data ref)).
Proof.
  intros Hd Hr Hf. rewrite logsumexp_spec. unfold event_term. f_equal.
  now apply masked_row_lse.
Qed.

Lemma bucket_term_spec m b :
  feasible_shape m -> well_shaped b ->
  bucket_term m b = xsum (map (event_term (m_lp m)) (events_of_bucket b)).
Proof.
  intros Hf (Hrect & Hd & Hr).
  unfold bucket_term, events_of_bucket. f_equal.
  destruct b as [data ref mask]. cbn [b_data b_ref b_mask] in *.
  assert (Hfe : forall row, In row data ->
     List.length (m_feasible m (hd [] data)) = List.length row).
  { destruct Hrect as [w Hw]. intros row Hrow. rewrite Hf.
    rewrite Forall_forall in Hw. rewrite (Hw row Hrow).
    destruct data; [inversion Hrow|]. simpl. apply Hw. now left. }
  clear Hrect. revert Hfe. generalize (m_feasible m (hd [] data)) as feas.
  unfold shape_eq in *.
  intros feas Hfe. revert ref Hr Hfe.
  induction Hd as [|drow mrow data mask Hdm Hd IH]; intros ref Hr Hfe; [reflexivity|].
  inversion Hr as [|rrow mrow' ref' mask' Hrm Hr']; subst. simpl.
  f_equal.
  - apply row_term; auto. rewrite <- Hdm. apply Hfe. now left.
  - apply IH; auto. intros; apply Hfe; now right.
Qed.

Lemma total_spec const m bs c :
  feasible_shape m -> stores bs c ->
  total_log_likelihood const m bs = xadd const (xsum (map (event_term (m_lp m)) c)).
Proof.
  intros Hf [Hw <-]. unfold total_log_likelihood.
  revert const. induction Hw as [|b bs Hb Hw IH]; intros const; simpl; [now rewrite xadd_0_r|].
  rewrite IH, bucket_term_spec by auto.
  rewrite map_app, xsum_app. now rewrite xadd_assoc.
Qed.

Lemma flowmc_core_spec (dist_fn : params -> model D) mu prior vi const cs x bs c :
  let m := dist_fn (cs ++ map_params vi x) in
  feasible_shape m -> stores bs c ->
  flowmc_core dist_fn mu prior vi const cs x bs
  = nan_to_neginf (xadd (prior x) (log_likelihood_spec const (m_lp m) (mu m) c)).
Proof.
  intros m Hf Hs. unfold flowmc_core. fold m.
  rewrite (total_spec const m bs c) by auto. reflexivity.
Qed.

Lemma flowmc_same (dist_fn : params -> model D) mu prior supp vi const wf cs x bs bs' c c' :
  (forall p, feasible_shape (dist_fn p)) -> stores bs c -> stores bs' c' -> Permutation c c' ->
  flowmc_likelihood dist_fn mu prior supp vi const wf cs x bs
  = flowmc_likelihood dist_fn mu prior supp vi const wf cs x bs'.
Proof.
  intros Hf Hs Hs' Hp.
  assert (E : flowmc_core dist_fn mu prior vi const cs x bs
            = flowmc_core dist_fn mu prior vi const cs x bs').
  { rewrite (flowmc_core_spec dist_fn mu prior vi const cs x bs c) by auto.
    rewrite (flowmc_core_spec dist_fn mu prior vi const cs x bs' c') by auto.
    unfold log_likelihood_spec.
    rewrite (xsum_permutation _ _ (Permutation_map (event_term _) Hp)). reflexivity. }
  unfold flowmc_likelihood. now rewrite E.
Qed.

(** ** range of the result *)
Lemma flowmc_range (dist_fn : params -> model D) mu prior supp vi const wf cs x bs :
  finite_or_neginf (flowmc_likelihood dist_fn mu prior supp vi const wf cs x bs).
Proof.
  unfold flowmc_likelihood, flowmc_core.
  destruct wf as [fns|]; [|apply nan_to_neginf_range].
  destruct (_ && _); [apply nan_to_neginf_range|now left].
Qed.

Lemma fold_and_true (p0 : params) (fns : list (params -> bool)) a :
  fold_left (fun p f => p && f p0) fns a = true <-> a = true /\ (forall f, In f fns -> f p0 = true).
Proof.
  revert a; induction fns as [|f fns IH]; simpl; intros a.
  - tauto.
  - rewrite IH, andb_true_iff. split.
    + intros [[H1 H2] H3]. split; auto. intros g [->|Hg]; auto.
    + intros [H1 H2]. repeat split; auto.
Qed.

Lemma flowmc_gating (dist_fn : params -> model D) mu prior supp vi const fns cs x bs :
  (supp x = false \/ (exists f, In f fns /\ f (cs ++ map_params vi x) = false)
   \/ (exists a, In a x /\ isfinite a = false)) ->
  flowmc_likelihood dist_fn mu prior supp vi const (Some fns) cs x bs = NInf.
Proof.
  intros H. unfold flowmc_likelihood.
  destruct (forallb isfinite x && _) eqn:E; [|reflexivity].
  apply andb_true_iff in E. destruct E as [E1 E2].
  apply fold_and_true in E2. destruct E2 as [E2 E3].
  rewrite forallb_forall in E1.
  destruct H as [H|[(f & Hf & H)|(a & Ha & H)]].
  - congruence.
  - rewrite (E3 f Hf) in H. discriminate.
  - rewrite (E1 a Ha) in H. discriminate.
Qed.

Lemma flowmc_pass (dist_fn : params -> model D) mu prior supp vi const fns cs x bs :
  supp x = true -> (forall f, In f fns -> f (cs ++ map_params vi x) = true) ->
  (forall a, In a x -> isfinite a = true) ->
  flowmc_likelihood dist_fn mu prior supp vi const (Some fns) cs x bs
  = flowmc_likelihood dist_fn mu prior supp vi const None cs x bs.
Proof.
  intros H1 H2 H3. unfold flowmc_likelihood.
  replace (forallb isfinite x) with true by (symmetry; apply forallb_forall; auto).
  replace (fold_left _ fns (supp x)) with true; [reflexivity|].
  symmetry. apply fold_and_true. auto.
Qed.

(** ** agreement of the two back-ends *)
Lemma xadd_fin_inv (a b : X) r : xadd a b = Fin r -> exists x y, a = Fin x /\ b = Fin y /\ r = x + y.
Proof. destruct a, b; simpl; try discriminate. intros [= <-]. eauto. Qed.

Lemma nan_to_neginf_fin a r : nan_to_neginf a = Fin r -> a = Fin r.
Proof. destruct a; simpl; congruence. Qed.

Lemma map_params_in_range vi x :
  (forall p, In p vi -> (snd p < List.length x)%nat) ->
  map_params vi x = map (fun p => (fst p, nth (snd p) x NaN)) vi.
Proof.
  intros H. unfold map_params. apply map_ext_in. intros p Hp.
  unfold dynamic_index. do 2 f_equal. specialize (H p Hp). lia.
Qed.

Lemma backends_agree big (dist_fn : params -> model D) mu prior supp vi const wf cs x bs r :
  (forall p, In p vi -> (snd p < List.length x)%nat) ->
  flowmc_likelihood dist_fn mu prior supp vi const wf cs x bs = Fin r ->
  xadd (prior x) (numpyro_factor dist_fn mu big vi const wf cs x bs) = Fin r.
Proof.
  intros Hvi H.
  assert (Hc : flowmc_core dist_fn mu prior vi const cs x bs = Fin r /\
               (forall fns, wf = Some fns -> forall f, In f fns -> f (cs ++ map_params vi x) = true)).
  { unfold flowmc_likelihood in H. destruct wf as [fns|].
    - destruct (forallb isfinite x && _) eqn:E; [|discriminate].
      split; auto. apply andb_true_iff in E. destruct E as [_ E].
      apply fold_and_true in E. destruct E as [_ E]. intros ? [= <-]. auto.
    - split; auto. discriminate. }
  destruct Hc as [Hc Hw]. unfold flowmc_core in Hc.
  apply nan_to_neginf_fin, xadd_fin_inv in Hc.
  destruct Hc as (p & l & Hp & Hl & ->).
  unfold numpyro_factor, numpyro_core.
  rewrite <- (map_params_in_range vi x Hvi). rewrite Hl. cbn [nan_to_neginf].
  replace (match wf with
    | Some (f :: fns) =>
        if fold_left (fun p0 g => p0 && g (cs ++ map_params vi x)) fns (f (cs ++ map_params vi x))
        then Fin l else NInf
    | _ => Fin l end) with (Fin l); [now rewrite Hp|].
  destruct wf as [[|f fns]|]; auto.
  replace (fold_left _ fns _) with true; auto.
  symmetry. apply fold_and_true. split.
  - apply (Hw (f :: fns)); auto. now left.
  - intros g Hg. apply (Hw (f :: fns)); auto. now right.
Qed.

(** The converse: the factor always replaces -inf by a finite number *)
Lemma numpyro_factor_finite big (dist_fn : params -> model D) mu vi const wf cs x bs :
  exists r, numpyro_factor dist_fn mu big vi const wf cs x bs = Fin r.
Proof.
  unfold numpyro_factor, numpyro_core.
  destruct (xsub _ _); simpl;
    destruct wf as [[|f fns]|]; simpl; eauto;
    destruct (fold_left _ _ _); simpl; eauto.
Qed.

(** ** variance of the single-event integrals *)
Lemma count_unpad {A} : forall mask (row : list A),
  List.length row = List.length mask ->
  count_nonzero mask = INR (List.length (unpad mask row)).
Proof.
  unfold unpad. induction mask as [|k mask IH]; intros [|a row] H; simpl in *; try discriminate; auto.
  injection H as H. rewrite (IH row H). destruct k; cbn [b2x filter fst map List.length].
  - rewrite S_INR. lra.
  - lra.
Qed.

Lemma safe_event_log_prob_weights m : forall mask data ref,
  feasible_shape m ->
  List.length data = List.length mask -> List.length ref = List.length mask ->
  (forall p, In p (unpad mask (combine data ref)) -> xsub (m_lp m (fst p)) (snd p) <> PInf) ->
  Forall fin_or_ninf (safe_event_log_prob m mask data ref) /\
  rsum (map wexp (safe_event_log_prob m mask data ref))
  = rsum (event_weights (m_lp m) (unpad mask (combine data ref))) /\
  rsum (map (fun a => wexp a * wexp a) (safe_event_log_prob m mask data ref))
  = rsum (map (fun w => w * w) (event_weights (m_lp m) (unpad mask (combine data ref)))).
Proof.
  intros mask data ref Hf Hd Hr Hp.
  unfold safe_event_log_prob.
  assert (Hfl : List.length (m_feasible m data) = List.length mask) by now rewrite Hf.
  revert Hfl. generalize (m_feasible m data) as feas. revert data ref Hd Hr Hp.
  unfold where_row, unpad, event_weights.
  induction mask as [|k mask IH]; intros [|d data] [|r ref] Hd Hr Hp [|f feas] Hfl;
    simpl in *; try discriminate; [repeat split; auto|].
  injection Hd as Hd; injection Hr as Hr; injection Hfl as Hfl.
  assert (Hp' : forall p, In p (map snd (filter fst (combine mask (combine data ref)))) ->
                xsub (m_lp m (fst p)) (snd p) <> PInf).
  { intros p Hin. apply Hp. destruct k; simpl; auto. }
  destruct (IH data ref Hd Hr Hp' feas Hfl) as (I1 & I2 & I3).
  destruct k; simpl.
  - specialize (Hp (d, r)). simpl in Hp. specialize (Hp (or_introl eq_refl)).
    set (v := xsub (m_lp m d) r) in *.
    destruct v; simpl; try congruence; (split; [constructor; simpl; auto|]); rewrite I2, I3; auto.
  - split; [constructor; simpl; auto|]. rewrite I2, I3. split; lra.
Qed.

Lemma wexp_double a : fin_or_ninf a -> wexp (xmul (Fin 2) a) = wexp a * wexp a.
Proof.
  destruct a; simpl; try tauto; intros _.
  - rewrite <- exp_plus. f_equal; lra.
  - unfold xinf_times. destruct (Rlt_dec 0 2); simpl; lra.
Qed.

Lemma fin_double a : fin_or_ninf a -> fin_or_ninf (xmul (Fin 2) a).
Proof.
  destruct a; simpl; try tauto; intros _. unfold xinf_times. destruct (Rlt_dec 0 2); simpl; auto; lra.
Qed.

Lemma double_filter l : Forall fin_or_ninf l ->
  map snd (filter (fun p => negb (isneginf (fst p))) (combine l (map (xmul (Fin 2)) l)))
  = filter (fun a => negb (isneginf a)) (map (xmul (Fin 2)) l).
Proof.
  induction 1 as [|a l Ha Hl IH]; simpl; auto.
  destruct a; simpl in *; try tauto.
  - now rewrite IH.
  - unfold xinf_times. destruct (Rlt_dec 0 2); [|lra]. simpl. auto.
Qed.

Lemma safe_prob r : 0 <= r ->
  (if isneginf (xln (Fin r)) then Fin 0 else xexp (xln (Fin r))) = Fin r.
Proof.
  intros [H|H].
  - rewrite xln_pos by auto. simpl. now rewrite exp_ln.
  - subst. now rewrite xln_zero.
Qed.

Lemma event_variance_spec mask lp :
  Forall fin_or_ninf lp ->
  0 < rsum (map wexp lp) ->
  count_nonzero mask <> 0 ->
  event_variance mask lp
  = Fin (rsum (map (fun a => wexp a * wexp a) lp) / (rsum (map wexp lp) * rsum (map wexp lp))
         - 1 / count_nonzero mask).
Proof.
  intros Hl Hs Hc. unfold event_variance.
  rewrite double_filter by auto.
  rewrite !logsumexp_filter_ninf.
  rewrite (logsumexp_fin lp) by auto.
  rewrite (logsumexp_fin (map (xmul (Fin 2)) lp)).
  2:{ apply Forall_map. eapply Forall_impl; [|exact Hl]. apply fin_double. }
  assert (E : rsum (map wexp (map (xmul (Fin 2)) lp)) = rsum (map (fun a => wexp a * wexp a) lp)).
  { rewrite map_map. f_equal. apply map_ext_in. intros a Ha. apply wexp_double.
    rewrite Forall_forall in Hl. auto. }
  rewrite E.
  assert (N1 : 0 <= rsum (map wexp lp)) by apply rsum_wexp_nonneg.
  assert (N2 : 0 <= rsum (map (fun a => wexp a * wexp a) lp)).
  { apply rsum_nonneg. apply Forall_map, Forall_forall. intros a _.
    apply Rmult_le_pos; apply wexp_nonneg. }
  rewrite !safe_prob by auto.
  rewrite xmul_fin, !xdiv_fin; auto.
  - apply Rgt_not_eq. apply Rmult_lt_0_compat; auto.
Qed.

Lemma good_event_nonempty (lp : D -> X) e : good_event lp e -> (0 < List.length e)%nat.
Proof. intros [_ H]. destruct e; simpl in *; [lra|lia]. Qed.

Lemma row_variance m mask data ref :
  feasible_shape m ->
  List.length data = List.length mask -> List.length ref = List.length mask ->
  good_event (m_lp m) (unpad mask (combine data ref)) ->
  event_variance mask (safe_event_log_prob m mask data ref)
  = Fin (var_spec (m_lp m) (unpad mask (combine data ref))).
Proof.
  intros Hf Hd Hr Hg. pose proof (good_event_nonempty _ _ Hg) as Hn. destruct Hg as [Hp Hs].
  destruct (safe_event_log_prob_weights m mask data ref Hf Hd Hr Hp) as (H1 & H2 & H3).
  assert (Hlen : List.length (combine data ref) = List.length mask).
  { rewrite combine_length. lia. }
  rewrite event_variance_spec; auto.
  - rewrite H2, H3. unfold var_spec. now rewrite (count_unpad mask (combine data ref)).
  - now rewrite H2.
  - rewrite (count_unpad mask (combine data ref)) by auto. apply not_0_INR. lia.
Qed.

Lemma bucket_variance_spec m b :
  feasible_shape m -> well_shaped b ->
  Forall (good_event (m_lp m)) (events_of_bucket b) ->
  bucket_variance m b = Fin (rsum (map (var_spec (m_lp m)) (events_of_bucket b))).
Proof.
  intros Hf (_ & Hd & Hr) Hg. destruct b as [data ref mask].
  unfold bucket_variance, events_of_bucket in *. cbn [b_data b_ref b_mask] in *.
  unfold shape_eq in *. revert ref Hr Hg.
  induction Hd as [|drow mrow data mask Hdm Hd IH]; intros ref Hr Hg; [reflexivity|].
  inversion Hr as [|rrow mrow' ref' mask' Hrm Hr']; subst. simpl in *.
  inversion Hg; subst.
  rewrite row_variance by auto. rewrite IH by auto. reflexivity.
Qed.

Lemma variance_spec m bs c :
  feasible_shape m -> stores bs c -> Forall (good_event (m_lp m)) c ->
  variance_of_single_event_likelihood m bs = Fin (rsum (map (var_spec (m_lp m)) c)).
Proof.
  intros Hf [Hw <-] Hg. unfold variance_of_single_event_likelihood.
  assert (G : forall acc, fold_left (fun a b => xadd a (bucket_variance m b)) bs (Fin acc)
            = Fin (acc + rsum (map (var_spec (m_lp m)) (flat_map events_of_bucket bs)))).
  2:{ rewrite G. f_equal. lra. }
  induction Hw as [|b bs Hb Hw IH]; intros acc; simpl in *; [f_equal; lra|].
  apply Forall_app in Hg. destruct Hg as [G1 G2].
  rewrite bucket_variance_spec by auto. cbn [xadd]. rewrite IH by auto.
  f_equal. rewrite map_app, rsum_app. apply Rplus_assoc.
Qed.

Lemma event_weights_length (lp : D -> X) e : List.length (event_weights lp e) = List.length e.
Proof. apply map_length. Qed.

Lemma var_spec_nonneg (lp : D -> X) e : good_event lp e -> 0 <= var_spec lp e.
Proof.
  intros Hg. pose proof (good_event_nonempty _ _ Hg) as Hn. destruct Hg as [_ Hs].
  unfold var_spec. set (w := event_weights lp e) in *.
  pose proof (cauchy_schwarz_list w) as C. unfold w in C at 3. rewrite event_weights_length in C.
  assert (HN : 0 < INR (List.length e)) by (apply lt_0_INR; lia).
  apply Rge_le, Rge_minus, Rle_ge.
  apply Rmult_le_reg_r with (INR (List.length e) * (rsum w * rsum w)).
  { apply Rmult_lt_0_compat; auto. apply Rmult_lt_0_compat; auto. }
  replace (1 / INR (List.length e) * (INR (List.length e) * (rsum w * rsum w)))
    with (rsum w * rsum w) by (field; lra).
  replace (rsum (map (fun x => x * x) w) / (rsum w * rsum w) * (INR (List.length e) * (rsum w * rsum w)))
    with (INR (List.length e) * rsum (map (fun x => x * x) w)) by (field; lra).
  exact C.
Qed.

End P.

Lemma variance_nonneg D (m : model D) bs c :
  feasible_shape m -> stores bs c -> Forall (good_event (m_lp m)) c ->
  exists v, variance_of_single_event_likelihood m bs = Fin v /\ 0 <= v.
Proof.
  intros H1 H2 H3. eexists. split; [apply variance_spec; eauto|].
  apply rsum_nonneg, Forall_map. eapply Forall_impl; [|exact H3].
  intros e He. now apply var_spec_nonneg.
Qed.

Lemma rsum_equal w l : Forall (fun a => a = w) l ->
  rsum l = INR (List.length l) * w /\ rsum (map (fun x => x * x) l) = INR (List.length l) * (w * w).
Proof.
  induction 1 as [|a l Ha Hl [I1 I2]]; [simpl; split; ring|].
  cbn [List.length map rsum]. rewrite S_INR, I1, I2, Ha. split; ring.
Qed.

Lemma var_spec_equal_weights D (lp : D -> X) e w :
  good_event lp e -> Forall (fun a => a = w) (event_weights lp e) -> var_spec lp e = 0.
Proof.
  intros Hg He. pose proof (good_event_nonempty _ _ _ Hg) as Hn. destruct Hg as [_ Hs].
  destruct (rsum_equal w _ He) as [E1 E2]. unfold var_spec. rewrite E2. rewrite E1 in *.
  unfold event_weights in *. rewrite map_length in *.
  assert (HN : 0 < INR (List.length e)) by (apply lt_0_INR; lia).
  field. split; [lra|]. intros ->. lra.
Qed.
