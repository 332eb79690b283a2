(** Properties C03, C04, C05, C06 (analytical likelihood), C08, C09. *)
From Coq Require Import Reals Lra Lia List Bool Permutation.
From Verif Require Import Model_X Spec_X Proofs_X Model_MonteCarlo Spec_MonteCarlo Proofs_MonteCarlo.
Import ListNotations.
Open Scope R_scope.

(** C04: the reported pair is (log mean, squared standard error of the mean). *)
Theorem C04_estimate_and_error :
  forall l, Forall fin_or_ninf l -> (1 < length l)%nat ->
  mc_estimate l (INR (length l)) = (log_of (mean (weights_of l)), Fin (sq_error (weights_of l))).
Proof. exact mc_estimate_correct. Qed.
Print Assumptions C04_estimate_and_error.

Theorem C04_error_nonneg :
  forall l, Forall fin_or_ninf l -> (1 < length l)%nat ->
  exists v, snd (mc_estimate l (INR (length l))) = Fin v /\ 0 <= v
    /\ (v = 0 <-> forall x y, In x (weights_of l) -> In y (weights_of l) -> x = y).
Proof.
  intros l H Hn. exists (sq_error (weights_of l)). rewrite mc_estimate_correct by auto.
  assert (Hw : (1 < length (weights_of l))%nat) by (now rewrite weights_length).
  split; [reflexivity|]. split; [now apply sq_error_nonneg | now apply sq_error_zero_iff].
Qed.
Print Assumptions C04_error_nonneg.
Example C04_nonvacuous : Forall fin_or_ninf [Fin 1; NInf; Fin 2] /\ (1 < length [Fin 1; NInf; Fin 2])%nat.
Proof. split; [repeat constructor|simpl; lia]. Qed.

(** C03: any number of batches of any sizes (at least two samples each) folded into the running
    values give exactly the values of the pooled sample ... *)
Theorem C03_stream_equals_pooled :
  forall batches,
  batches <> [] -> Forall (fun l => Forall fin_or_ninf l /\ (1 < length l)%nat) batches ->
  fold_left mc_step batches mc_start
  = (log_of (mean (weights_of (concat batches))),
     Fin (sq_error (weights_of (concat batches))),
     INR (length (concat batches))).
Proof. exact mc_stream. Qed.
Print Assumptions C03_stream_equals_pooled.

(** ... which is what the one-shot estimator returns on the pooled sample. *)
Theorem C03_stream_equals_one_shot :
  forall batches,
  batches <> [] -> Forall (fun l => Forall fin_or_ninf l /\ (1 < length l)%nat) batches ->
  let all := concat batches in
  fold_left mc_step batches mc_start = (mc_estimate all (INR (length all)), INR (length all)).
Proof.
  intros bs Hne H all. rewrite mc_stream by auto. unfold mc_result. fold all.
  rewrite mc_estimate_correct; auto.
  - unfold all. apply Forall_concat. eapply Forall_impl; [|exact H]. intros a [Ha _]; exact Ha.
  - unfold all. destruct H as [|b bs [_ Hb] H]; [congruence|]. simpl. rewrite app_length. lia.
Qed.
Print Assumptions C03_stream_equals_one_shot.
Example C03_nonvacuous :
  Forall (fun l => Forall fin_or_ninf l /\ (1 < length l)%nat) [[Fin 0; NInf]; [Fin 1; Fin 2; NInf]].
Proof. repeat constructor; simpl; try lia; auto. Qed.

(** The value an event contributes is the log mean weight of all samples drawn for it, for every
    threshold and step budget; and so is its error. *)
Theorem C03_event_loop_pools_its_batches :
  forall K (split : K -> K * K) lw thr nmax key,
  (1 <= nmax)%nat -> (forall k, Forall fin_or_ninf (lw k) /\ (1 < length (lw k))%nat) ->
  exists n, (1 <= n <= nmax)%nat
    /\ fst (event_loop split lw thr nmax key)
       = (log_of (mean (weights_of (pooled split lw n key))),
          Fin (sq_error (weights_of (pooled split lw n key))),
          INR (length (pooled split lw n key))).
Proof. exact @event_loop_pooled. Qed.
Print Assumptions C03_event_loop_pools_its_batches.

(** The analytical log posterior: prior + n log T + sum of log mean weights - expected rate. *)
Theorem C03_analytical_likelihood_value :
  forall K (split : K -> K * K) err nmax T prior rate w (keys : list K) x,
  (1 <= nmax)%nat ->
  (forall i k, Forall fin_or_ninf (w x i k) /\ (1 < length (w x i k))%nat) ->
  exists counts, length counts = length keys /\ Forall (fun n => (1 <= n <= nmax)%nat) counts /\
    analytical_likelihood split err nmax T prior rate w keys x
    = nan_to_neginf
        (xadd (prior x)
              (xsub (xadd (xmul (Fin (INR (length keys))) (xln (Fin T)))
                          (xsum (map (fun p => log_of (mean (weights_of
                                   (pooled split (w x (fst (fst p))) (snd p) (snd (fst p))))))
                                     (combine (combine (seq 0 (length keys)) keys) counts))))
                    (rate x))).
Proof. exact @analytical_value. Qed.
Print Assumptions C03_analytical_likelihood_value.

(** C05, as the docstring has it, is false of the code, in both directions.
    Accuracy reached with the first batch, yet the loop keeps drawing: *)
Theorem C05_stops_when_accurate_refuted :
  exists (split : nat -> nat * nat) lw, forall thr nmax key, 0 <= thr -> (2 <= nmax)%nat ->
  ~ exists n, adaptive_stop (fun j => error_after split lw j key) thr nmax n
      /\ fst (event_loop split lw thr nmax key) = values_after split lw n key.
Proof. exists const_split, (fun _ => [Fin 0; Fin 0]). exact C05_overrun. Qed.
Print Assumptions C05_stops_when_accurate_refuted.

(** accuracy not reached and budget left, yet the loop stops: *)
Theorem C05_continues_until_accurate_refuted :
  exists (split : nat -> nat * nat) lw, forall thr nmax key, thr < 1/4 -> (2 <= nmax)%nat ->
  ~ exists n, adaptive_stop (fun j => error_after split lw j key) thr nmax n
      /\ fst (event_loop split lw thr nmax key) = values_after split lw n key.
Proof. exists const_split, (fun _ => [Fin 0; NInf]). exact C05_early. Qed.
Print Assumptions C05_continues_until_accurate_refuted.

(** What the loop does: it draws at least one and at most [nmax] batches, and goes on exactly
    as long as the error is small. *)
Theorem C05_loop_condition_partial :
  forall K (split : K -> K * K) lw thr nmax key,
  (1 <= nmax)%nat ->
  exists n, (1 <= n <= nmax)%nat
    /\ fst (event_loop split lw thr nmax key) = values_after split lw n key
    /\ (forall j, (1 <= j < n)%nat -> xleb (error_after split lw j key) (Fin thr) = true)
    /\ (n = nmax \/ xleb (error_after split lw n key) (Fin thr) = false).
Proof. exact @event_loop_batches. Qed.
Print Assumptions C05_loop_condition_partial.

(** C06 for the analytical likelihood *)
Theorem C06_analytical_finite_or_neginf :
  forall K (split : K -> K * K) err nmax T prior rate w (keys : list K) x,
  finite_or_neginf (analytical_likelihood split err nmax T prior rate w keys x).
Proof. exact @analytical_range. Qed.
Print Assumptions C06_analytical_finite_or_neginf.

(** C08 *)
Theorem C08_expected_count :
  forall A (lp : A -> X) injections batch T total,
  match batch with Some n => (0 < n)%nat | None => True end ->
  injection_poisson_mean lp injections batch T total
  = Some (xdiv (xmul (Fin T)
                     (total_weight (map (fun p => injection_weight (lp (fst p), snd p)) injections)))
               (Fin total)).
Proof. exact @injection_mean_correct. Qed.
Print Assumptions C08_expected_count.

Theorem C08_order_and_batch_independent :
  forall A (lp : A -> X) inj inj' b b' T total,
  match b with Some n => (0 < n)%nat | None => True end ->
  match b' with Some n => (0 < n)%nat | None => True end ->
  Permutation inj inj' ->
  injection_poisson_mean lp inj b T total = injection_poisson_mean lp inj' b' T total.
Proof. exact @injection_mean_order. Qed.
Print Assumptions C08_order_and_batch_independent.
Example C08_nonvacuous :
  Permutation [(0%nat, Fin 1); (1%nat, NaN); (2%nat, NInf)] [(2%nat, NInf); (0%nat, Fin 1); (1%nat, NaN)].
Proof. apply Permutation_sym. apply (Permutation_cons_app [(0%nat, Fin 1); (1%nat, NaN)] []). apply Permutation_refl. Qed.

(** C09 *)
Theorem C09_variance_value :
  forall A (lp : A -> X) inj b T total,
  match b with Some n => (0 < n)%nat | None => True end ->
  (forall p, In p inj -> xsub (lp (fst p)) (snd p) <> PInf) -> 0 < T -> 0 < total ->
  let w := map (fun p => wexp (xsub (lp (fst p)) (snd p))) inj in
  injection_variance lp inj b T total
  = Some (Fin (T * T / (total * total) * (rsum (map (fun x => x * x) w) - rsum w * rsum w / total))).
Proof. exact @injection_variance_correct. Qed.
Print Assumptions C09_variance_value.

Theorem C09_variance_nonneg :
  forall A (lp : A -> X) inj b T total,
  match b with Some n => (0 < n)%nat | None => True end ->
  (forall p, In p inj -> xsub (lp (fst p)) (snd p) <> PInf) -> 0 < T -> 0 < total ->
  INR (length inj) <= total ->
  exists v, injection_variance lp inj b T total = Some (Fin v) /\ 0 <= v.
Proof.
  intros A lp inj b T total Hb Hp HT Ht Hn. eexists. split; [now apply injection_variance_correct|].
  apply injection_variance_nonneg; auto. now rewrite map_length.
Qed.
Print Assumptions C09_variance_nonneg.
Example C09_nonvacuous :
  (forall p, In p [(0%nat, Fin 0); (1%nat, PInf)] -> xsub ((fun _ => Fin 1) (fst p)) (snd p) <> PInf)
  /\ 0 < 1 /\ INR (length [(0%nat, Fin 0); (1%nat, PInf)]) <= 5.
Proof. split; [intros p [<-|[<-|[]]]; simpl; discriminate|]. simpl. split; lra. Qed.
