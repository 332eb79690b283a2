From Coq Require Import Reals Lra Lia List Bool Permutation.
From Verif Require Import Model_X Spec_X Proofs_X Model_Likelihood Model_Sage Proofs_Sage
     Model_MonteCarlo Spec_MonteCarlo.
Import ListNotations.
Open Scope R_scope.

Lemma log_of_xln r : 0 <= r -> log_of r = xln (Fin r).
Proof.
  intros H. unfold log_of. destruct (Rlt_dec 0 r).
  - now rewrite xln_pos.
  - replace r with 0 by lra. now rewrite xln_zero.
Qed.

Lemma log_of_pos r : 0 < r -> log_of r = Fin (ln r).
Proof. intros; unfold log_of; destruct (Rlt_dec 0 r); auto; lra. Qed.
Lemma log_of_zero : log_of 0 = NInf.
Proof. unfold log_of; destruct (Rlt_dec 0 0); auto; lra. Qed.

Lemma xexp_log_of r : 0 <= r -> xexp (log_of r) = Fin r.
Proof.
  intros H. unfold log_of. destruct (Rlt_dec 0 r); simpl; f_equal.
  - now apply exp_ln.
  - lra.
Qed.

Lemma xmul2_log_of r : 0 <= r -> xmul (Fin 2) (log_of r) = log_of (r * r).
Proof.
  intros H. unfold log_of. destruct (Rlt_dec 0 r).
  - destruct (Rlt_dec 0 (r * r)) as [_|E]; [|exfalso; apply E; nra].
    simpl. f_equal. rewrite ln_mult by auto. ring.
  - replace (r * r) with 0 by nra. destruct (Rlt_dec 0 0); [lra|].
    simpl. unfold xinf_times. destruct (Rlt_dec 0 2); [auto|lra].
Qed.

Lemma xadd_log_of a b : 0 <= a -> 0 <= b -> xadd (log_of a) (log_of b) = log_of (a * b).
Proof.
  intros Ha Hb.
  destruct (Rle_lt_or_eq_dec 0 a Ha) as [Pa|<-].
  - destruct (Rle_lt_or_eq_dec 0 b Hb) as [Pb|<-].
    + rewrite !log_of_pos by (auto; nra). simpl. now rewrite ln_mult.
    + rewrite Rmult_0_r, log_of_zero, (log_of_pos a) by auto. reflexivity.
  - rewrite Rmult_0_l, log_of_zero. destruct (log_of b) eqn:E; auto;
      unfold log_of in E; destruct (Rlt_dec 0 b); discriminate.
Qed.

Lemma xsub_log_of a b : 0 <= a -> 0 < b -> xsub (log_of a) (xln (Fin b)) = log_of (a / b).
Proof.
  intros Ha Hb. rewrite xln_pos by auto. unfold xsub; simpl xopp.
  replace (- ln b) with (ln (/ b)) by (now apply ln_Rinv).
  pose proof (Rinv_0_lt_compat _ Hb).
  rewrite <- log_of_pos by auto. rewrite xadd_log_of by lra. reflexivity.
Qed.

Lemma logaddexp_log_of a b : 0 <= a -> 0 <= b -> logaddexp (log_of a) (log_of b) = log_of (a + b).
Proof.
  intros Ha Hb. unfold logaddexp. rewrite !xexp_log_of by auto. simpl xadd.
  rewrite log_of_xln by lra. reflexivity.
Qed.

Lemma log_of_inj a b : 0 <= a -> 0 <= b -> log_of a = log_of b -> a = b.
Proof.
  intros Ha Hb E. apply (f_equal xexp) in E. rewrite !xexp_log_of in E by auto. congruence.
Qed.

(** masked logsumexp *)
Lemma where_nonneginf (l : list X) (f : X -> X) :
  map snd (filter fst (combine (map (fun a => negb (isneginf a)) l) (map f l)))
  = map f (filter (fun a => negb (isneginf a)) l).
Proof.
  induction l as [|a l IH]; simpl; auto.
  destruct (isneginf a); simpl; rewrite IH; auto.
Qed.
Lemma where_nonneginf_id l :
  map snd (filter fst (combine (map (fun a => negb (isneginf a)) l) l))
  = filter (fun a => negb (isneginf a)) l.
Proof. pose proof (where_nonneginf l (fun x => x)) as H. now rewrite !map_id in H. Qed.

Lemma lse1 l : Forall fin_or_ninf l ->
  logsumexp_where (combine (map (fun a => negb (isneginf a)) l) l) = log_of (rsum (weights_of l)).
Proof.
  intros H. unfold logsumexp_where. rewrite where_nonneginf_id, logsumexp_filter_ninf.
  rewrite logsumexp_fin by auto. unfold weights_of. rewrite log_of_xln; auto.
  apply rsum_wexp_nonneg.
Qed.

Lemma xmul2_fin_or_ninf a : fin_or_ninf a -> fin_or_ninf (xmul (Fin 2) a).
Proof.
  destruct a; simpl; try tauto. intros _. unfold xinf_times. destruct (Rlt_dec 0 2); simpl; auto. lra.
Qed.
Lemma wexp_xmul2 a : fin_or_ninf a -> wexp (xmul (Fin 2) a) = wexp a * wexp a.
Proof.
  destruct a; simpl; try tauto; intros _.
  - rewrite <- exp_plus. f_equal; ring.
  - unfold xinf_times. destruct (Rlt_dec 0 2); simpl; lra.
Qed.

Lemma rsum_sq_filter_ninf l :
  Forall fin_or_ninf l ->
  rsum (map wexp (map (xmul (Fin 2)) (filter (fun a => negb (isneginf a)) l)))
  = rsum (map (fun x => x * x) (weights_of l)).
Proof.
  induction 1 as [|a l Ha Hl IH]; simpl; auto.
  destruct a; simpl in Ha; try tauto; simpl; rewrite IH.
  - f_equal. rewrite <- exp_plus. f_equal; ring.
  - ring.
Qed.

Lemma rsum_sq_nonneg w : 0 <= rsum (map (fun x => x * x) w).
Proof. apply rsum_nonneg, Forall_map, Forall_forall. intros; apply Rle_0_sqr. Qed.

Lemma lse2 l : Forall fin_or_ninf l ->
  logsumexp_where (combine (map (fun a => negb (isneginf a)) l) (map (xmul (Fin 2)) l))
  = log_of (rsum (map (fun x => x * x) (weights_of l))).
Proof.
  intros H. unfold logsumexp_where. rewrite where_nonneginf.
  rewrite logsumexp_fin.
  - rewrite rsum_sq_filter_ninf by auto. rewrite log_of_xln; auto. apply rsum_sq_nonneg.
  - apply Forall_map. rewrite Forall_forall in *. intros x Hx. apply filter_In in Hx as [Hx _].
    apply xmul2_fin_or_ninf; auto.
Qed.

Lemma weights_nonneg l : 0 <= rsum (weights_of l).
Proof. apply rsum_wexp_nonneg. Qed.
Lemma weights_length l : length (weights_of l) = length l.
Proof. apply map_length. Qed.
Lemma mean_nonneg l : 0 <= mean (weights_of l).
Proof.
  unfold mean. destruct l as [|a l].
  - simpl. unfold Rdiv. rewrite Rmult_0_l. lra.
  - apply Rmult_le_pos; [apply weights_nonneg|]. left. apply Rinv_0_lt_compat.
    apply lt_0_INR. rewrite weights_length. simpl; lia.
Qed.

Lemma sq_error_alt w : (1 < length w)%nat ->
  sq_error w = (rsum (map (fun x => x * x) w) / INR (length w) - mean w * mean w)
               / (INR (length w) - 1).
Proof.
  intros H. assert (1 < INR (length w)) by (change 1 with (INR 1); now apply lt_INR).
  unfold sq_error. rewrite rsum_sq_dev. unfold mean. field. lra.
Qed.

Lemma INR_gt1 {A} (l : list A) : (1 < length l)%nat -> 1 < INR (length l).
Proof. intros; change 1 with (INR 1); now apply lt_INR. Qed.

(** C04: the estimate and its squared error *)
Theorem mc_estimate_correct l :
  Forall fin_or_ninf l -> (1 < length l)%nat ->
  mc_estimate l (INR (length l))
  = (log_of (mean (weights_of l)), Fin (sq_error (weights_of l))).
Proof.
  intros H Hn. apply INR_gt1 in Hn as Hn'.
  unfold mc_estimate. rewrite lse1, lse2 by auto.
  rewrite xsub_log_of by (try apply weights_nonneg; lra).
  assert (Em : rsum (weights_of l) / INR (length l) = mean (weights_of l))
    by (unfold mean; now rewrite weights_length).
  rewrite Em. f_equal.
  rewrite xexp_log_of by apply rsum_sq_nonneg.
  rewrite xmul2_log_of by apply mean_nonneg.
  rewrite xexp_log_of by (pose proof (mean_nonneg l); nra).
  rewrite xdiv_fin by lra. unfold xsub; simpl xopp; simpl xadd.
  rewrite xdiv_fin by lra. f_equal.
  rewrite sq_error_alt by (now rewrite weights_length). rewrite weights_length. unfold Rminus. auto.
Qed.

Theorem sq_error_nonneg w : (1 < length w)%nat -> 0 <= sq_error w.
Proof.
  intros H. apply INR_gt1 in H. unfold sq_error. apply Rmult_le_pos; [apply rsum_sq_dev_nonneg|].
  left. apply Rinv_0_lt_compat. nra.
Qed.

Lemma rsum_zero_nonneg l : Forall (fun x => 0 <= x) l -> rsum l = 0 -> Forall (fun x => x = 0) l.
Proof.
  induction 1 as [|a l Ha Hl IH]; simpl; intros E; constructor.
  - pose proof (rsum_nonneg l Hl). lra.
  - apply IH. pose proof (rsum_nonneg l Hl). lra.
Qed.

Theorem sq_error_zero_iff w : (1 < length w)%nat ->
  (sq_error w = 0 <-> forall x y, In x w -> In y w -> x = y).
Proof.
  intros Hn. apply INR_gt1 in Hn as H. split.
  - intros E.
    assert (Hz : rsum (map (fun x => (x - mean w) * (x - mean w)) w) = 0).
    { unfold sq_error in E. apply Rmult_integral in E as [E|E]; auto.
      exfalso. apply Rinv_neq_0_compat in E; auto. nra. }
    apply rsum_zero_nonneg in Hz.
    + rewrite Forall_map, Forall_forall in Hz. intros x y Hx Hy.
      apply Hz in Hx, Hy.
      apply Rsqr_0_uniq in Hx. apply Rsqr_0_uniq in Hy. lra.
    + apply Forall_map, Forall_forall. intros x _. apply Rle_0_sqr.
  - intros Heq. unfold sq_error.
    assert (Em : forall x, In x w -> x = mean w).
    { intros x Hx. assert (Ew : rsum w = INR (length w) * x).
      { rewrite <- (rsum_const x w). f_equal. rewrite <- (map_id w) at 1.
        apply map_ext_in. intros a Ha. now apply Heq. }
      unfold mean. rewrite Ew. field. lra. }
    replace (rsum _) with 0; [unfold Rdiv; ring|].
    symmetry. replace 0 with (INR (length w) * 0) by ring. rewrite <- (rsum_const 0 w). f_equal.
    apply map_ext_in. intros a Ha. rewrite (Em a Ha) at 1 2.
    assert (E: mean w - mean w = 0) by ring. rewrite E. ring.
Qed.

(** C03 *)
Definition mc_result (l : list X) : mc_values :=
  (log_of (mean (weights_of l)), Fin (sq_error (weights_of l)), INR (length l)).

Lemma weights_app l1 l2 : weights_of (l1 ++ l2) = weights_of l1 ++ weights_of l2.
Proof. apply map_app. Qed.

Lemma combine_core (e1 m1 N1 : R) l2 (S1 Q1 : R) :
  Forall fin_or_ninf l2 -> (1 < length l2)%nat ->
  0 <= N1 -> 0 <= m1 -> N1 * m1 = S1 -> N1 * ((N1 - 1) * e1 + m1 * m1) = Q1 ->
  let N2 := INR (length l2) in
  let N3 := N1 + N2 in
  let m3 := (S1 + rsum (weights_of l2)) / N3 in
  mc_step (log_of m1, Fin e1, N1) l2
  = (log_of m3,
     Fin (((Q1 + rsum (map (fun x => x * x) (weights_of l2))) / N3 - m3 * m3) / (N3 - 1)), N3).
Proof.
  intros H2 Hn2 HN1 Hm1 HS HQ N2 N3 m3. apply INR_gt1 in Hn2 as Hn2'.
  pose proof (mean_nonneg l2) as Hm2. pose proof (weights_nonneg l2) as Hw2.
  assert (HS1 : 0 <= S1) by (rewrite <- HS; nra).
  unfold mc_step. fold N2. unfold N2 in *. rewrite mc_estimate_correct by auto. fold N2.
  assert (EW2 : N2 * mean (weights_of l2) = rsum (weights_of l2)).
  { unfold mean. rewrite weights_length. unfold N2. field. lra. }
  assert (Elog : combine_log_estimates (log_of m1) (log_of (mean (weights_of l2))) N1 N2
                 = log_of m3).
  { unfold combine_log_estimates.
    rewrite <- (log_of_xln N1), <- (log_of_xln N2) by (unfold N2; lra).
    rewrite !xadd_log_of by (unfold N2; lra).
    rewrite HS, EW2.
    rewrite logaddexp_log_of by lra.
    rewrite xsub_log_of by (unfold N2; lra). reflexivity. }
  rewrite Elog. f_equal. f_equal.
  assert (Hm3 : 0 <= m3).
  { unfold m3. apply Rmult_le_pos; [lra|]. left. apply Rinv_0_lt_compat. unfold N3, N2; lra. }
  unfold combine_errors_sq.
  rewrite !xmul2_log_of by auto.
  rewrite !xexp_log_of by nra.
  rewrite !xmul_fin. simpl xopp. cbn [xadd]. rewrite !xmul_fin. cbn [xadd].
  rewrite HQ.
  assert (N1 + N2 > 0) by (unfold N2; lra). assert (N1 + N2 - 1 > 0) by (unfold N2; lra).
  rewrite !xdiv_fin by lra. cbn [xadd]. f_equal.
  rewrite sq_error_alt by (now rewrite weights_length). rewrite weights_length. fold N2.
  change N3 with (N1 + N2). clearbody m3. assert (1 < N2) by exact Hn2'. clearbody N2. field. lra.
Qed.

Theorem mc_step_first l : Forall fin_or_ninf l -> (1 < length l)%nat ->
  mc_step mc_start l = mc_result l.
Proof.
  intros H Hn. apply INR_gt1 in Hn as Hn'. unfold mc_start.
  pose proof (combine_core 0 0 0 l 0 0 H Hn) as C. rewrite log_of_zero in C.
  rewrite C by (try ring; lra). unfold mc_result.
  rewrite !Rplus_0_l. unfold mean. rewrite weights_length. f_equal. f_equal.
  rewrite sq_error_alt by (now rewrite weights_length). unfold mean. rewrite !weights_length. reflexivity.
Qed.

Theorem mc_step_append l1 l2 :
  Forall fin_or_ninf l1 -> Forall fin_or_ninf l2 -> (1 < length l1)%nat -> (1 < length l2)%nat ->
  mc_step (mc_result l1) l2 = mc_result (l1 ++ l2).
Proof.
  intros H1 H2 Hn1 Hn2. apply INR_gt1 in Hn1 as Hn1'. apply INR_gt1 in Hn2 as Hn2'.
  unfold mc_result.
  rewrite (combine_core _ _ _ l2 (rsum (weights_of l1)) (rsum (map (fun x => x * x) (weights_of l1))) H2 Hn2).
  - rewrite weights_app, app_length, plus_INR. f_equal. f_equal.
    { unfold mean. now rewrite rsum_app, app_length, !weights_length, plus_INR. }
    f_equal.
    rewrite sq_error_alt by (rewrite app_length, !weights_length; lia).
    unfold mean. rewrite map_app, !rsum_app, app_length, !weights_length, plus_INR. reflexivity.
  - lra.
  - apply mean_nonneg.
  - unfold mean. rewrite weights_length. field. lra.
  - rewrite sq_error_alt by (now rewrite weights_length). unfold mean. rewrite weights_length.
    field. lra.
Qed.

Theorem mc_stream bs :
  bs <> [] -> Forall (fun l => Forall fin_or_ninf l /\ (1 < length l)%nat) bs ->
  fold_left mc_step bs mc_start = mc_result (concat bs).
Proof.
  intros Hne H. destruct bs as [|b bs]; [congruence|]. clear Hne. cbn [fold_left concat].
  inversion H as [|? ? [Hb Hbn] Hbs]; subst. rewrite mc_step_first by auto. clear H.
  revert b Hb Hbn. induction Hbs as [|c bs [Hc Hcn] Hbs IH]; intros b Hb Hbn; cbn [fold_left concat].
  - now rewrite app_nil_r.
  - rewrite mc_step_append by auto. rewrite app_assoc. apply IH.
    + apply Forall_app; auto.
    + rewrite app_length. lia.
Qed.

(** C05/C06: the loop *)
Section Loop.
Context {K : Type} (split : K -> K * K) (log_weights : K -> list X).
Local Notation body := (while_body split log_weights).

(** after [k] iterations *)
Fixpoint iterate (k : nat) (s : loop_state K) : loop_state K :=
  match k with O => s | S k' => iterate k' (body s) end.

Lemma while_loop_iterate cond fuel s :
  exists k, (k <= fuel)%nat
    /\ while_loop cond body fuel s = iterate k s
    /\ (forall j, (j < k)%nat -> cond (iterate j s) = true)
    /\ (k = fuel \/ cond (iterate k s) = false).
Proof.
  revert s. induction fuel as [|f IH]; intros s.
  - exists 0%nat. repeat split; auto; intros; lia.
  - simpl. destruct (cond s) eqn:E.
    + destruct (IH (body s)) as (k & Hk & Heq & Hall & Hend).
      exists (S k). split; [lia|]. split; [exact Heq|]. split.
      * intros [|j] Hj; simpl; auto. apply Hall; lia.
      * destruct Hend; [left; lia|right; auto].
    + exists 0%nat. repeat split; auto; intros; lia.
Qed.

Lemma iterate_values k s :
  fst (iterate k s) = fold_left mc_step (map log_weights (batch_keys split k (snd s))) (fst s).
Proof.
  revert s. induction k as [|k IH]; intros s; cbn [iterate batch_keys map fold_left]; auto.
  rewrite IH. unfold while_body. destruct (split (snd s)) as [a b]. reflexivity.
Qed.
End Loop.

Lemma event_loop_batches {K} (split : K -> K * K) lw thr nmax key :
  (1 <= nmax)%nat ->
  exists n, (1 <= n <= nmax)%nat
    /\ fst (event_loop split lw thr nmax key) = values_after split lw n key
    /\ (forall j, (1 <= j < n)%nat -> xleb (error_after split lw j key) (Fin thr) = true)
    /\ (n = nmax \/ xleb (error_after split lw n key) (Fin thr) = false).
Proof.
  intros Hn. unfold event_loop.
  destruct (while_loop_iterate split lw (loop_cond thr) (nmax - 1) (while_body split lw (mc_start, key)))
    as (k & Hk & Heq & Hall & Hend).
  assert (Hv : forall j, fst (iterate split lw j (while_body split lw (mc_start, key)))
                         = values_after split lw (S j) key).
  { intros j. exact (iterate_values split lw (S j) (mc_start, key)). }
  exists (S k). split; [lia|]. split; [rewrite Heq; apply Hv|]. split.
  - intros j Hj. specialize (Hall (j - 1)%nat ltac:(lia)). unfold loop_cond, error_of in Hall.
    rewrite Hv in Hall. replace (S (j - 1)) with j in Hall by lia. exact Hall.
  - destruct Hend as [->|E]; [left; lia|right].
    unfold loop_cond, error_of in E. rewrite Hv in E. exact E.
Qed.

Definition good_batch (l : list X) : Prop := Forall fin_or_ninf l /\ (1 < length l)%nat.

Lemma batch_keys_length {K} (split : K -> K * K) n key : length (batch_keys split n key) = n.
Proof. revert key; induction n; simpl; auto. Qed.

Lemma values_after_pooled {K} (split : K -> K * K) lw n key :
  (1 <= n)%nat -> (forall k, good_batch (lw k)) ->
  values_after split lw n key = mc_result (concat (map lw (batch_keys split n key))).
Proof.
  intros Hn Hg. unfold values_after. apply mc_stream.
  - destruct n; [lia|]. discriminate.
  - apply Forall_map, Forall_forall. intros k _. apply Hg.
Qed.

Lemma event_loop_pooled {K} (split : K -> K * K) lw thr nmax key :
  (1 <= nmax)%nat -> (forall k, good_batch (lw k)) ->
  exists n, (1 <= n <= nmax)%nat
    /\ fst (event_loop split lw thr nmax key)
       = (log_of (mean (weights_of (pooled split lw n key))),
          Fin (sq_error (weights_of (pooled split lw n key))),
          INR (length (pooled split lw n key))).
Proof.
  intros Hn Hg. destruct (event_loop_batches split lw thr nmax key Hn) as (n & Hr & E & _).
  exists n. split; auto. rewrite E, values_after_pooled by (auto; lia). reflexivity.
Qed.

Lemma fold_left_xadd {A} (f : A -> X) l c :
  fold_left (fun acc a => xadd acc (f a)) l c = xadd c (xsum (map f l)).
Proof.
  revert c. induction l as [|a l IH]; intros c; simpl; [now rewrite xadd_0_r|].
  rewrite IH. now rewrite xadd_assoc.
Qed.

Lemma choose_counts {K} (split : K -> K * K) (w : nat -> K -> list X) thr nmax (keys : list (nat * K)) :
  (1 <= nmax)%nat -> (forall i k, good_batch (w i k)) ->
  exists ns, length ns = length keys /\ Forall (fun n => (1 <= n <= nmax)%nat) ns /\
    map (fun p => log_estimate_of (event_loop split (w (fst p)) thr nmax (snd p))) keys
    = map (fun p => log_of (mean (weights_of (pooled split (w (fst (fst p))) (snd p) (snd (fst p))))))
          (combine keys ns).
Proof.
  intros Hn Hg. induction keys as [|[i k] keys (ns & Hl & Hr & E)].
  - exists []. auto.
  - destruct (event_loop_pooled split (w i) thr nmax k Hn (Hg i)) as (n & Hn' & En).
    exists (n :: ns). simpl. split; [lia|]. split; [constructor; auto|].
    rewrite E. f_equal. unfold log_estimate_of. rewrite En. reflexivity.
Qed.

Theorem analytical_value {K} (split : K -> K * K) err nmax T prior rate w (keys : list K) x :
  (1 <= nmax)%nat -> (forall i k, good_batch (w x i k)) ->
  exists ns, length ns = length keys /\ Forall (fun n => (1 <= n <= nmax)%nat) ns /\
    analytical_likelihood split err nmax T prior rate w keys x
    = nan_to_neginf
        (xadd (prior x)
              (xsub (xadd (xmul (Fin (INR (length keys))) (xln (Fin T)))
                          (xsum (map (fun p => log_of (mean (weights_of
                                   (pooled split (w x (fst (fst p))) (snd p) (snd (fst p))))))
                                     (combine (combine (seq 0 (length keys)) keys) ns))))
                    (rate x))).
Proof.
  intros Hn Hg.
  destruct (choose_counts split (w x) (err * err) nmax (combine (seq 0 (length keys)) keys) Hn Hg)
    as (ns & Hl & Hr & E).
  exists ns. rewrite combine_length, seq_length, Nat.min_id in Hl. split; auto. split; auto.
  unfold analytical_likelihood. rewrite fold_left_xadd, E. reflexivity.
Qed.

Lemma analytical_range {K} (split : K -> K * K) err nmax T prior rate w (keys : list K) x :
  finite_or_neginf (analytical_likelihood split err nmax T prior rate w keys x).
Proof. apply nan_to_neginf_range. Qed.

(** refutations of C05 *)
Definition const_split (k : nat) : nat * nat := (k, k).
Lemma values_const n w key :
  good_batch w -> (1 <= n)%nat ->
  values_after const_split (fun _ => w) n key = mc_result (concat (repeat w n)).
Proof.
  intros Hg Hn. rewrite values_after_pooled by auto. f_equal. f_equal.
  clear. revert key. induction n; intros; simpl; auto. now rewrite IHn.
Qed.

Lemma concat_repeat_length {A} (w : list A) n : length (concat (repeat w n)) = (n * length w)%nat.
Proof. induction n; simpl; auto. rewrite app_length. lia. Qed.

Lemma good_2 a b : fin_or_ninf a -> fin_or_ninf b -> good_batch [a; b].
Proof. split; [repeat constructor; auto|simpl; lia]. Qed.

Lemma values_const_inj n m w key :
  good_batch w -> (1 <= n)%nat -> (1 <= m)%nat ->
  values_after const_split (fun _ => w) n key = values_after const_split (fun _ => w) m key -> n = m.
Proof.
  intros Hg Hn Hm E. rewrite !values_const in E by auto. unfold mc_result in E.
  injection E as _ _ E. apply INR_eq in E. rewrite !concat_repeat_length in E.
  destruct Hg as [_ Hg]. nia.
Qed.

(** accuracy reached after one batch, but the loop runs on to the budget *)
Lemma C05_overrun :
  forall thr nmax key, 0 <= thr -> (2 <= nmax)%nat ->
  ~ exists n, adaptive_stop (fun j => error_after const_split (fun _ => [Fin 0; Fin 0]) j key) thr nmax n
      /\ fst (event_loop const_split (fun _ => [Fin 0; Fin 0]) thr nmax key)
         = values_after const_split (fun _ => [Fin 0; Fin 0]) n key.
Proof.
  intros thr nmax key Ht Hn (n & (Hr & Hbefore & Hstop) & E).
  destruct (event_loop_batches const_split (fun _ => [Fin 0; Fin 0]) thr nmax key ltac:(lia))
    as (m & Hm & Em & Hle & Hend).
  assert (Hg : good_batch [Fin 0; Fin 0]) by (apply good_2; exact I).
  assert (n = m) by (rewrite E in Em; apply values_const_inj in Em; auto; lia). subst m.
  assert (He : forall j, (1 <= j)%nat ->
            error_after const_split (fun _ => [Fin 0; Fin 0]) j key = Fin 0).
  { intros j Hj. unfold error_after. rewrite values_const by auto. unfold mc_result. simpl. f_equal.
    assert (Hlen : (1 < length (weights_of (concat (repeat [Fin 0; Fin 0] j))))%nat).
    { rewrite weights_length, concat_repeat_length. simpl length. lia. }
    apply sq_error_zero_iff; auto.
    assert (forall x, In x (weights_of (concat (repeat [Fin 0; Fin 0] j))) -> x = exp 0).
    { intros x Hx. unfold weights_of in Hx. apply in_map_iff in Hx as (a & <- & Ha).
      apply in_concat in Ha as (l & Hl & Ha). apply repeat_spec in Hl. subst.
      simpl in Ha. destruct Ha as [<-|[<-|[]]]; reflexivity. }
    intros x y Hx Hy. rewrite (H x Hx), (H y Hy). reflexivity. }
  assert (Ha : xleb (Fin 0) (Fin thr) = true) by (simpl; destruct (Rle_dec 0 thr); auto; lra).
  destruct Hend as [->|Hf].
  - apply (Hbefore 1%nat ltac:(lia)). rewrite He by lia. exact Ha.
  - rewrite He in Hf by lia. congruence.
Qed.

(** accuracy not reached and budget left, but the loop stops *)
Lemma C05_early :
  forall thr nmax key, thr < 1/4 -> (2 <= nmax)%nat ->
  ~ exists n, adaptive_stop (fun j => error_after const_split (fun _ => [Fin 0; NInf]) j key) thr nmax n
      /\ fst (event_loop const_split (fun _ => [Fin 0; NInf]) thr nmax key)
         = values_after const_split (fun _ => [Fin 0; NInf]) n key.
Proof.
  intros thr nmax key Ht Hn (n & (Hr & Hbefore & Hstop) & E).
  destruct (event_loop_batches const_split (fun _ => [Fin 0; NInf]) thr nmax key ltac:(lia))
    as (m & Hm & Em & Hle & Hend).
  assert (Hg : good_batch [Fin 0; NInf]) by (apply good_2; exact I).
  assert (n = m) by (rewrite E in Em; apply values_const_inj in Em; auto; lia). subst m.
  assert (He : error_after const_split (fun _ => [Fin 0; NInf]) 1 key = Fin (1/4)).
  { unfold error_after. rewrite values_const by auto. unfold mc_result. cbn [fst snd]. f_equal.
    unfold sq_error, mean, weights_of. simpl. rewrite exp_0. field. }
  assert (Ha : xleb (Fin (1/4)) (Fin thr) = false).
  { cbn [xleb]. destruct (Rle_dec (1/4) thr); auto; lra. }
  destruct (Nat.eq_dec n 1) as [->|Hne].
  - destruct Hstop as [Hs|Hs]; [lia|]. rewrite He in Hs. congruence.
  - specialize (Hle 1%nat ltac:(lia)). rewrite He in Hle. congruence.
Qed.

(** C08, C09 *)
Lemma lax_map_spec {A B} (f : A -> B) xs b :
  match b with Some n => (0 < n)%nat | None => True end -> lax_map f xs b = Some (map f xs).
Proof.
  intros H. destruct b as [b|]; [|reflexivity]. unfold lax_map.
  destruct (batch_and_remainder_spec xs b H) as (bs & rem & E & C & _). rewrite E.
  f_equal. rewrite <- C, map_app, concat_map. reflexivity.
Qed.

Lemma map2_map {A} (f : A -> X) (inj : list (A * X)) :
  map2 xsub (map f (map fst inj)) (map snd inj) = map (fun p => xsub (f (fst p)) (snd p)) inj.
Proof. induction inj as [|[a b] l IH]; simpl; auto. now rewrite IH. Qed.

Lemma xsum_weight (l : list (X * X)) :
  xsum (map xexp (map (fun p => safe_log_prob (xsub (fst p) (snd p))) l))
  = total_weight (map injection_weight l).
Proof.
  induction l as [|p l IH]; simpl; auto. rewrite IH. f_equal.
  unfold injection_weight, safe_log_prob. destruct (xsub (fst p) (snd p)); simpl; auto.
Qed.

Lemma total_weight_cases (l : list (X * X)) :
  total_weight (map injection_weight l) = PInf \/
  exists r, 0 <= r /\ total_weight (map injection_weight l) = Fin r.
Proof.
  induction l as [|p l [E|(r & Hr & E)]]; simpl.
  - right. exists 0. split; auto; lra.
  - left. rewrite E. unfold injection_weight. destruct (xsub (fst p) (snd p)); reflexivity.
  - rewrite E. unfold injection_weight. destruct (xsub (fst p) (snd p)) as [x| | |]; simpl; auto.
    + right. exists (exp x + r). split; auto. pose proof (exp_pos x); lra.
    + right. exists (0 + r). split; auto; lra.
    + right. exists (0 + r). split; auto; lra.
Qed.

Lemma keep_finite_filter l :
  map snd (filter fst (keep_finite_weights l)) = filter (fun a => negb (isneginf a)) l.
Proof. induction l as [|a l IH]; simpl; auto. destruct (isneginf a); simpl; rewrite IH; auto. Qed.

Theorem injection_mean_correct {A} (lp : A -> X) inj b T total :
  match b with Some n => (0 < n)%nat | None => True end ->
  injection_poisson_mean lp inj b T total
  = Some (xdiv (xmul (Fin T) (total_weight (map (fun p => injection_weight (lp (fst p), snd p)) inj)))
               (Fin total)).
Proof.
  intros H. unfold injection_poisson_mean. rewrite lax_map_spec by auto. f_equal. f_equal. f_equal.
  rewrite map2_map. unfold logsumexp_where. rewrite keep_finite_filter, logsumexp_filter_ninf.
  rewrite logsumexp_spec.
  rewrite <- (map_map (fun p => (lp (fst p), snd p)) injection_weight).
  assert (E : map safe_log_prob (map (fun p => xsub (lp (fst p)) (snd p)) inj)
              = map (fun p => safe_log_prob (xsub (fst p) (snd p)))
                    (map (fun p => (lp (fst p), snd p)) inj)) by now rewrite !map_map.
  rewrite E. clear E.
  rewrite xsum_weight.
  destruct (total_weight_cases (map (fun p => (lp (fst p), snd p)) inj)) as [E|(r & Hr & E)];
    rewrite E; [reflexivity|].
  rewrite <- log_of_xln by auto. now rewrite xexp_log_of.
Qed.

Theorem injection_mean_order {A} (lp : A -> X) inj inj' b b' T total :
  match b with Some n => (0 < n)%nat | None => True end ->
  match b' with Some n => (0 < n)%nat | None => True end ->
  Permutation inj inj' ->
  injection_poisson_mean lp inj b T total = injection_poisson_mean lp inj' b' T total.
Proof.
  intros Hb Hb' P. rewrite !injection_mean_correct by auto. f_equal. f_equal. f_equal.
  apply xsum_permutation. now apply Permutation_map.
Qed.

Lemma safe_fin_or_ninf a : a <> PInf -> fin_or_ninf (safe_log_prob a).
Proof. destruct a; simpl; auto. Qed.

Lemma xmul_pos_ninf k : 0 < k -> xmul (Fin k) NInf = NInf.
Proof. intros; simpl. unfold xinf_times. destruct (Rlt_dec 0 k); auto; lra. Qed.

Theorem injection_variance_correct {A} (lp : A -> X) inj b T total :
  match b with Some n => (0 < n)%nat | None => True end ->
  (forall p, In p inj -> xsub (lp (fst p)) (snd p) <> PInf) -> 0 < T -> 0 < total ->
  let w := map (fun p => wexp (xsub (lp (fst p)) (snd p))) inj in
  injection_variance lp inj b T total
  = Some (Fin (T * T / (total * total) *
               (rsum (map (fun x => x * x) w) - rsum w * rsum w / total))).
Proof.
  intros Hb Hp HT Htot w. unfold injection_variance. rewrite lax_map_spec by auto.
  rewrite map2_map.
  set (l := map safe_log_prob _).
  assert (Hl : Forall fin_or_ninf l).
  { unfold l. apply Forall_map, Forall_map, Forall_forall. intros p Hin.
    apply safe_fin_or_ninf. auto. }
  assert (Ew : weights_of l = w).
  { unfold l, w, weights_of. rewrite !map_map. apply map_ext. intros p.
    destruct (xsub (lp (fst p)) (snd p)); reflexivity. }
  rewrite lse1, lse2 by auto. rewrite Ew.
  assert (Hw : 0 <= rsum w) by (rewrite <- Ew; apply weights_nonneg).
  rewrite xmul2_log_of by auto. rewrite !(xln_pos) by auto. rewrite !xmul_fin.
  unfold xsub. cbn [xopp xadd].
  assert (Hc2 : 2 * ln T + - (2 * ln total) = ln (T * T / (total * total))).
  { unfold Rdiv. rewrite ln_mult, ln_Rinv, !ln_mult; try nra. apply Rinv_0_lt_compat; nra. }
  assert (Hc3 : 2 * ln T + - (3 * ln total) = ln (T * T / (total * total * total))).
  { assert (0 < total * total) by nra.
    unfold Rdiv. rewrite ln_mult, ln_Rinv, !ln_mult; try nra. apply Rinv_0_lt_compat; nra. }
  rewrite Hc2, Hc3.
  assert (H2 : 0 < T * T / (total * total)).
  { apply Rmult_lt_0_compat; [nra|]. apply Rinv_0_lt_compat; nra. }
  assert (H3 : 0 < T * T / (total * total * total)).
  { apply Rmult_lt_0_compat; [nra|]. apply Rinv_0_lt_compat.
    apply Rmult_lt_0_compat; nra. }
  rewrite <- (log_of_pos (T * T / (total * total))), <- (log_of_pos (T * T / (total * total * total))) by auto.
  rewrite !xadd_log_of by (try apply rsum_sq_nonneg; nra).
  rewrite !xexp_log_of.
  - cbn [xopp xadd]. f_equal. f_equal. field. lra.
  - apply Rmult_le_pos; [lra|nra].
  - apply Rmult_le_pos; [lra|apply rsum_sq_nonneg].
Qed.

Theorem injection_variance_nonneg T total w :
  0 < T -> 0 < total -> INR (length w) <= total ->
  0 <= T * T / (total * total) * (rsum (map (fun x => x * x) w) - rsum w * rsum w / total).
Proof.
  intros HT Htot Hn.
  apply Rmult_le_pos.
  - apply Rmult_le_pos; [nra|]. left. apply Rinv_0_lt_compat; nra.
  - pose proof (cauchy_schwarz_list w). pose proof (rsum_sq_nonneg w).
    assert (rsum w * rsum w <= total * rsum (map (fun x => x * x) w)) by nra.
    apply Rmult_le_reg_l with total; auto. rewrite Rmult_0_r, Rmult_minus_distr_l.
    replace (total * (rsum w * rsum w / total)) with (rsum w * rsum w) by (field; lra). lra.
Qed.

(** equal log weights *)
Lemma constant_sample w l : (1 < length l)%nat -> Forall (eq (Fin w)) l ->
  log_of (mean (weights_of l)) = Fin w /\ sq_error (weights_of l) = 0.
Proof.
  intros Hl H. unfold weights_of.
  assert (S : forall l, Forall (eq (Fin w)) l -> rsum (map wexp l) = INR (length l) * exp w).
  { clear. induction 1; [cbn; ring|]. cbn [map rsum]. rewrite IHForall, <- H. cbn [length wexp]. rewrite S_INR. ring. }
  assert (P : 0 < INR (length l)) by (apply lt_0_INR; lia).
  assert (M : mean (map wexp l) = exp w).
  { unfold mean. rewrite S, map_length by auto. field. lra. }
  split.
  - unfold log_of. rewrite M, ln_exp. destruct (Rlt_dec 0 (exp w)) as [|n]; [reflexivity|]. destruct n. apply exp_pos.
  - unfold sq_error. rewrite M.
    assert (Z : rsum (map (fun x => (x - exp w) * (x - exp w)) (map wexp l)) = 0).
    { clear - H. induction H; [reflexivity|]. cbn [map rsum]. rewrite IHForall, <- H. cbn [wexp]. ring. }
    rewrite Z. unfold Rdiv. ring.
Qed.
