(** Properties C01, C02, C06, C07, C10, C11, C12. *)
From Coq Require Import Reals Lra Lia List Bool String QArith Permutation Sorting.Sorted.
From Verif Require Import Model_X Spec_X Model_Jenks Spec_Jenks Model_Likelihood Spec_Likelihood
     Model_Sage Proofs_X Proofs_Jenks Proofs_Likelihood Proofs_Sage.
Import ListNotations.
Open Scope R_scope.

(** C02: pad_and_stack loses and duplicates nothing. *)
Theorem C02_pad_and_stack_lossless :
  forall A jb (arrays : list (aseq A)) nb thr padded masks n,
  breaks_sorted jb ->
  aligned arrays ->
  (forall s, In s arrays -> List.length (items s) = n) ->
  pad_and_stack jb arrays nb thr = Some (padded, masks) ->
  exists order,
    Permutation order (seq 0 n) /\
    StronglySorted (size_order arrays) order /\
    Forall rectangular masks /\
    Forall2 (fun s data =>
               same_shape masks data /\
               unpad_buckets masks data = map (fun i => nth i (items s) []) order)
            arrays padded.
Proof. exact @pad_and_stack_correct. Qed.
Print Assumptions C02_pad_and_stack_lossless.

Definition ex_jb (data : list nat) (n : nat) : option (list nat) := Some [1; 2; 7]%nat.
Definition ex_arrays : list (aseq nat) :=
  [mkseq 1 0%nat [[1;2;3;4;5;6;7]; [8]; [9;10]]%nat; mkseq 0 0%nat [[1;1;1;1;1;1;1]; [2]; [3;3]]%nat].
Example C02_nonvacuous :
  breaks_sorted ex_jb /\ aligned ex_arrays /\
  (forall s, In s ex_arrays -> List.length (items s) = 3%nat) /\
  pad_and_stack ex_jb ex_arrays (Some 2%nat) 3%Q
  = Some ([[[[8;0];[9;10]]; [[1;2;3;4;5;6;7]]]; [[[2;0];[3;3]]; [[1;1;1;1;1;1;1]]]]%nat,
          [[[true;false];[true;true]]; [[true;true;true;true;true;true;true]]]).
Proof.
  split; [|split; [|split]].
  - intros data n br [= <-]. repeat constructor.
  - intros s t [<-|[<-|[]]] [<-|[<-|[]]]; reflexivity.
  - intros s [<-|[<-|[]]]; reflexivity.
  - reflexivity.
Qed.

(** C02: with automatic bucket selection the function returns a result for every catalogue,
    whatever the external library does (even if it fails or returns nonsense). *)
Theorem C02_automatic_mode_total :
  forall A jb (arrays : list (aseq A)) thr n,
  arrays <> [] ->
  (forall s, In s arrays -> List.length (items s) = n) ->
  (0 <= thr)%Q -> (thr <= 100)%Q ->
  exists r, pad_and_stack jb arrays None thr = Some r.
Proof. exact @pad_and_stack_auto_total. Qed.
Print Assumptions C02_automatic_mode_total.
Example C02_automatic_nonvacuous :
  pad_and_stack (fun _ _ => None) ex_arrays None 3%Q
  = Some ([[[[8;0;0;0;0;0;0];[9;10;0;0;0;0;0];[1;2;3;4;5;6;7]]];
           [[[2;0;0;0;0;0;0];[3;3;0;0;0;0;0];[1;1;1;1;1;1;1]]]]%nat,
          [[[true;false;false;false;false;false;false];[true;true;false;false;false;false;false];
            [true;true;true;true;true;true;true]]]).
Proof. reflexivity. Qed.

(** C01: the log-posterior depends on the stored catalogue only, not on buckets, padding
    lengths, padding values or event order. *)
Theorem C01_likelihood_of_stored_catalogue :
  forall D (dist_fn : params -> model D) mu prior vi const cs x bs c,
  let m := dist_fn (cs ++ map_params vi x) in
  feasible_shape m -> stores bs c ->
  flowmc_core dist_fn mu prior vi const cs x bs
  = nan_to_neginf (xadd (prior x) (log_likelihood_spec const (m_lp m) (mu m) c)).
Proof. exact flowmc_core_spec. Qed.
Print Assumptions C01_likelihood_of_stored_catalogue.

Theorem C01_bucketing_invariance :
  forall D (dist_fn : params -> model D) mu prior supp vi const wf cs x bs bs' c c',
  (forall p, feasible_shape (dist_fn p)) -> stores bs c -> stores bs' c' -> Permutation c c' ->
  flowmc_likelihood dist_fn mu prior supp vi const wf cs x bs
  = flowmc_likelihood dist_fn mu prior supp vi const wf cs x bs'.
Proof. exact flowmc_same. Qed.
Print Assumptions C01_bucketing_invariance.

(** One catalogue of two events stored in two different ways, with different padding. *)
Example C01_nonvacuous :
  let c := [[(1%nat, Fin 0)]; [(2%nat, Fin 1); (3%nat, Fin 2)]] in
  stores [mkbucket [[1; 7]; [2; 3]]%nat [[Fin 0; NaN]; [Fin 1; Fin 2]] [[true; false]; [true; true]]] c /\
  stores [mkbucket [[1]]%nat [[Fin 0]] [[true]];
          mkbucket [[2; 3; 9]]%nat [[Fin 1; Fin 2; PInf]] [[true; true; false]]] c /\
  (forall p : params, feasible_shape ((fun _ => mkmodel (fun _ : nat => Fin 0) (fun l => l)) p)).
Proof.
  split; [|split].
  - split; [|reflexivity]. constructor; [|constructor].
    split; [exists 2%nat; repeat constructor|]. split; repeat constructor.
  - split; [|reflexivity]. constructor; [|constructor; [|constructor]].
    + split; [exists 1%nat; repeat constructor|]. split; repeat constructor.
    + split; [exists 3%nat; repeat constructor|]. split; repeat constructor.
  - intros p l. reflexivity.
Qed.

(** C01 end to end: what the driver computes from the loaded events is the Poisson
    log-posterior: prior - mu + sum over events of log (T/n_e * sum of weights). *)
Theorem C01_end_to_end :
  forall jb ndim (events : list (list (list X))) refs nb thr T bs const
         (dist_fn : params -> model (list X)) mu prior vi cs x,
  breaks_sorted jb ->
  map (@List.length (list X)) events = map (@List.length X) refs ->
  0 < T -> Forall (fun e => e <> []) events ->
  read_data jb ndim events refs nb thr T = Some (bs, const) ->
  let m := dist_fn (cs ++ map_params vi x) in
  feasible_shape m ->
  flowmc_core dist_fn mu prior vi const cs x bs
  = nan_to_neginf (xadd (prior x)
      (xsub (xsum (map (fun p => xadd (Fin (ln (T / INR (List.length (fst p)))))
                             (event_term (m_lp m) (combine (fst p) (snd p)))) (combine events refs)))
            (mu m))).
Proof. exact read_data_likelihood. Qed.
Print Assumptions C01_end_to_end.
Example C01_end_to_end_nonvacuous :
  let events := [[[Fin 1]; [Fin 2]]; [[Fin 3]]] in
  let refs := [[Fin 0; Fin 1]; [Fin 2]] in
  map (@List.length (list X)) events = map (@List.length X) refs /\
  Forall (fun e => e <> []) events /\
  exists r, read_data ex_jb 1 events refs (Some 1%nat) 3%Q 1 = Some r.
Proof. split; [reflexivity|]. split; [repeat constructor; discriminate|]. eexists. reflexivity. Qed.

(** C06: the value is finite or -inf, whatever the ingredients return. *)
Theorem C06_flowmc_value_finite_or_neginf :
  forall D (dist_fn : params -> model D) mu prior supp vi const wf cs x bs,
  finite_or_neginf (flowmc_likelihood dist_fn mu prior supp vi const wf cs x bs).
Proof. exact flowmc_range. Qed.
Print Assumptions C06_flowmc_value_finite_or_neginf.

Theorem C06_flowmc_gating :
  forall D (dist_fn : params -> model D) mu prior supp vi const fns cs x bs,
  (supp x = false \/ (exists f, In f fns /\ f (cs ++ map_params vi x) = false)
   \/ (exists a, In a x /\ isfinite a = false)) ->
  flowmc_likelihood dist_fn mu prior supp vi const (Some fns) cs x bs = NInf.
Proof. exact flowmc_gating. Qed.
Print Assumptions C06_flowmc_gating.

(** ... and where all the checks pass the gate is transparent. *)
Theorem C06_flowmc_gate_transparent :
  forall D (dist_fn : params -> model D) mu prior supp vi const fns cs x bs,
  supp x = true -> (forall f, In f fns -> f (cs ++ map_params vi x) = true) ->
  (forall a, In a x -> isfinite a = true) ->
  flowmc_likelihood dist_fn mu prior supp vi const (Some fns) cs x bs
  = flowmc_likelihood dist_fn mu prior supp vi const None cs x bs.
Proof. exact flowmc_pass. Qed.
Print Assumptions C06_flowmc_gate_transparent.
Example C06_nonvacuous :
  (exists a, In a [Fin 0; NaN] /\ isfinite a = false) /\
  (forall a, In a [Fin 0; Fin 1] -> isfinite a = true).
Proof.
  split; [exists NaN; simpl; auto|].
  intros a [<-|[<-|[]]]; reflexivity.
Qed.

(** C07: the two back-ends agree wherever the flowMC log-posterior is finite.  [sites] are the
    log-densities of the NumPyro sample sites in sorted order. *)
Theorem C07_backends_agree :
  forall big D (dist_fn : params -> model D) mu (sites : list (X -> X)) supp vi const wf cs x bs r,
  let prior := fun v => xsum (map2 (fun f a => f a) sites v) in
  (forall p, In p vi -> (snd p < List.length x)%nat) ->
  flowmc_likelihood dist_fn mu prior supp vi const wf cs x bs = Fin r ->
  xadd (xsum (map2 (fun f a => f a) sites x))
       (numpyro_factor dist_fn mu big vi const wf cs x bs) = Fin r.
Proof. exact (fun big D dist_fn mu sites supp => backends_agree D big dist_fn mu _ supp). Qed.
Print Assumptions C07_backends_agree.
Example C07_nonvacuous :
  let dist_fn := fun _ : params => mkmodel (fun _ : nat => Fin 1) (fun l => l) in
  exists r, flowmc_likelihood dist_fn (fun _ => Fin 2)
     (fun v => xsum (map2 (fun f a => f a) [fun a : X => a] v)) (fun _ => true)
     [("a"%string, 0%nat)] (Fin 0) None [] [Fin 3] [] = Fin r.
Proof. eexists. reflexivity. Qed.

(** C07 does not extend to points of zero posterior density: the NumPyro factor is always a
    finite number, so a point excluded by a where-function keeps a (very negative but) finite
    log-density there. *)
Theorem C07_numpyro_factor_always_finite :
  forall big D (dist_fn : params -> model D) mu vi const wf cs x bs,
  exists r, numpyro_factor dist_fn mu big vi const wf cs x bs = Fin r.
Proof. exact (fun big D => numpyro_factor_finite D big). Qed.
Print Assumptions C07_numpyro_factor_always_finite.

(** C10: total variance over a bucketed catalogue is the sum over events of
    (sum w^2)/(sum w)^2 - 1/n, each non-negative. *)
Theorem C10_variance_is_sum_over_events :
  forall D (m : model D) bs c,
  feasible_shape m -> stores bs c -> Forall (good_event (m_lp m)) c ->
  variance_of_single_event_likelihood m bs = Fin (rsum (map (var_spec (m_lp m)) c)).
Proof. exact variance_spec. Qed.
Print Assumptions C10_variance_is_sum_over_events.

Theorem C10_event_variance_nonneg :
  forall D (lp : D -> X) e, good_event lp e -> 0 <= var_spec lp e.
Proof. exact var_spec_nonneg. Qed.
Print Assumptions C10_event_variance_nonneg.

Theorem C10_variance_nonneg :
  forall D (m : model D) bs c,
  feasible_shape m -> stores bs c -> Forall (good_event (m_lp m)) c ->
  exists v, variance_of_single_event_likelihood m bs = Fin v /\ 0 <= v.
Proof. exact variance_nonneg. Qed.
Print Assumptions C10_variance_nonneg.

(** ... and an event with equal weights contributes zero. *)
Theorem C10_equal_weights_zero :
  forall D (lp : D -> X) e w,
  good_event lp e -> Forall (fun a => a = w) (event_weights lp e) -> var_spec lp e = 0.
Proof. exact var_spec_equal_weights. Qed.
Print Assumptions C10_equal_weights_zero.
Example C10_nonvacuous :
  good_event (fun d : nat => Fin (INR d)) [(1%nat, Fin 0); (2%nat, Fin 1); (3%nat, PInf)].
Proof.
  split.
  - intros p [<-|[<-|[<-|[]]]]; simpl; discriminate.
  - unfold event_weights, xsub. cbn [map fst snd rsum xopp xadd wexp].
    pose proof (exp_pos (INR 1 + - 0)). pose proof (exp_pos (INR 2 + Ropp 1)). lra.
Qed.

(** C12 *)
Theorem C12_batch_and_remainder_lossless :
  forall A (l : list A) size,
  (0 < size)%nat ->
  exists bs rem, batch_and_remainder l size = Some (bs, rem)
    /\ (List.concat bs ++ rem = l)%list
    /\ Forall (fun c => List.length c = size) bs
    /\ (List.length rem < size)%nat.
Proof. exact @batch_and_remainder_spec. Qed.
Print Assumptions C12_batch_and_remainder_lossless.
Example C12_example : batch_and_remainder [1;2;3;4;5]%nat 2 = Some ([[1;2];[3;4]]%nat, [5%nat]).
Proof. reflexivity. Qed.

(** C11: for every batch size the cut keeps, in order, exactly the samples below the threshold. *)
Theorem C11_variance_cut_exact :
  forall S big batch (variance : S -> X) thr samples,
  (0 < batch)%nat -> samples <> [] -> thr <= big ->
  variance_cut big batch variance thr samples
  = Some (filter (fun s => keeps big (variance s) thr) samples).
Proof. exact @variance_cut_keeps. Qed.
Print Assumptions C11_variance_cut_exact.
Example C11_nonvacuous :
  (0 < 100)%nat /\ [Fin 0; NaN] <> [] /\ 1 <= 1000 /\
  keeps 1000 (Fin 0) 1 = true /\ keeps 1000 NaN 1 = false /\ keeps 1000 PInf 1 = false.
Proof.
  split; [lia|]. split; [discriminate|]. split; [lra|]. unfold keeps.
  destruct (Rlt_dec 0 1); [|lra]. repeat split; auto.
Qed.

(** An empty sample file is an error, not an empty result. *)
Theorem C11_no_samples_is_error :
  forall S big batch (variance : S -> X) thr, variance_cut big batch variance thr [] = None.
Proof. exact @variance_cut_empty. Qed.
Print Assumptions C11_no_samples_is_error.
