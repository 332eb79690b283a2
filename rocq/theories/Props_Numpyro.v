(** Property C46: the NumPyro driver saves every chain exactly once. *)
From Coq Require Import Decimal DecimalString DecimalNat DecimalFacts.
From Coq Require Import String Ascii List Arith Bool Reals Lia ZArith.
From Verif Require Import Model_Key Model_Numpyro Spec_Numpyro Proofs_Numpyro Spec_Chains Proofs_Chains.
Import ListNotations.
Open Scope nat_scope.

(** For every number of chains and devices, chain method and initial contents of the directory:
    the sampler is called with distinct random keys for n chains in total; file i (i < n) holds
    the labels and the rows of chain i and is written once; the combined file is the
    concatenation in order under one header; no other file changes. *)
Theorem C46_chains_saved : forall mcmc labels d value s0 n_devices chain_method num_chains key n,
  samples_of mcmc labels d value -> labels <> [] -> 0 < n_devices ->
  n = match num_chains with Some n => n | None => 1 end -> 0 < n ->
  exists ops calls,
    run_mcmc mcmc labels n_devices (Some chain_method) num_chains key = Some ops
    /\ NoDup (map fst calls)
    /\ length (chains_of_calls labels d value calls) = n
    /\ let chains := chains_of_calls labels d value calls in
       let s := run_ops s0 ops in
       (forall i, i < n -> s (chain_path i) = Some (Table (Some labels) (nth i chains []))
                           /\ touches (chain_path i) ops = 1)
       /\ s samples_path = Some (Table (Some labels) (concat chains))
       /\ (forall p, p <> samples_path -> (forall i, i < n -> p <> chain_path i) -> s p = s0 p).
Proof.
  intros mcmc labels d value s0 nd cm nc key n H Hl Hd Hn Hp.
  destruct (run_mcmc_spec mcmc labels d value s0 nd cm nc key n H Hl Hd Hn Hp) as [ops [calls [E [N [S [_ [G1 [G2 G3]]]]]]]].
  exists ops, calls. pose proof (calls_count labels d value calls) as L. rewrite S in L. rewrite L in G1, G3.
  split; [exact E|]. split; [exact N|]. split; [exact L|]. split; [exact G1|]. split.
  - apply G2. intros E0. rewrite E0 in L. cbn in L. lia.
  - intros p Hp1 Hp2. now apply G3.
Qed.
Print Assumptions C46_chains_saved.
Lemma lookup_all_spec samples : forall labels,
  match lookup_all samples labels with
  | Some arrs => Forall2 (fun l g => samples l = Some g) labels arrs
  | None => exists l, In l labels /\ samples l = None
  end.
Proof.
  induction labels as [|l labels IH]; cbn; [constructor|]. destruct (samples l) as [g|] eqn:E; [|exists l; auto].
  destruct (lookup_all samples labels) as [gs|]; [now constructor|]. destruct IH as (l' & I & N). exists l'. auto.
Qed.
Lemma same_shape_labels (samples : string -> option grouped) a : forall labels arrs, Forall2 (fun l g => samples l = Some g) labels arrs ->
  (forall g, In g arrs -> same_shape a g = true) ->
  forall l, In l labels -> exists v, samples l = Some (Grouped (n_chains a) (n_draws a) v).
Proof.
  induction 1 as [|l g ls gs E L IH]; intros F l' I; [destruct I|]. destruct I as [->|I]; [|apply IH; auto using in_cons].
  specialize (F g (or_introl eq_refl)). unfold same_shape in F. apply andb_true_iff in F. destruct F as [F1 F2].
  apply Nat.eqb_eq in F1, F2. destruct g as [c d v]. cbn in F1, F2. subst. exists v. exact E.
Qed.
Lemma labels_of (samples : string -> option grouped) : forall labels arrs, Forall2 (fun l g => samples l = Some g) labels arrs ->
  forall g, In g arrs -> exists l, In l labels /\ samples l = Some g.
Proof.
  induction 1 as [|l g ls gs E L IH]; intros g' I; [destruct I|]. destruct I as [->|I]; [exists l; split; [now left|exact E]|].
  destruct (IH g' I) as (l' & I' & E'). exists l'. split; [now right|exact E'].
Qed.
(** a batch is saved exactly if every label has samples, all with the same numbers of chains and draws, and there is at
    least one label and one chain *)
Theorem C46_saved_exactly : forall samples start labels,
  save_inference_data samples start labels <> None
  <-> labels <> [] /\ exists c d, 0 < c /\ forall l, In l labels -> exists v, samples l = Some (Grouped c d v).
Proof.
  intros samples start labels. unfold save_inference_data. pose proof (lookup_all_spec samples labels) as L.
  destruct (lookup_all samples labels) as [arrs|].
  2:{ split; [congruence|]. intros (_ & c & d & _ & H). destruct L as (l & I & N). destruct (H l I) as [v E]. congruence. }
  unfold stack_last. destruct arrs as [|a arrs].
  { inversion L; subst. split; [congruence|]. intros [H _]. congruence. }
  assert (NE : labels <> []) by (intros ->; inversion L).
  destruct (forallb (same_shape a) (a :: arrs)) eqn:F.
  - rewrite forallb_forall in F.
    assert (S : forall l, In l labels -> exists v, samples l = Some (Grouped (n_chains a) (n_draws a) v)).
    { exact (same_shape_labels samples a labels (a :: arrs) L F). }
    destruct (seq 0 (n_chains a)) as [|i is] eqn:Q.
    + cbn [map]. split; [congruence|]. intros (_ & c & d & P & H). destruct labels as [|l ls]; [congruence|].
      destruct (H l (or_introl eq_refl)) as [v E]. destruct (S l (or_introl eq_refl)) as [v' E']. rewrite E in E'. injection E' as -> _ _.
      destruct (n_chains a); [lia|discriminate].
    + cbn [map]. split; [|discriminate]. intros _. split; [exact NE|]. exists (n_chains a), (n_draws a). split; [|exact S].
      destruct (n_chains a); [discriminate|lia].
  - split; [congruence|]. intros (_ & c & d & P & H). exfalso.
    assert (K : forall g, In g (a :: arrs) -> n_chains g = c /\ n_draws g = d).
    { intros g I. destruct (labels_of samples labels (a :: arrs) L g I) as (l & I' & E). destruct (H l I') as [v E'].
      rewrite E in E'. injection E' as ->. auto. }
    destruct (K a (or_introl eq_refl)) as [K1 K2].
    assert (T : forallb (same_shape a) (a :: arrs) = true); [|congruence].
    apply forallb_forall. intros g I. destruct (K g I) as [G1 G2]. unfold same_shape. rewrite K1, K2, G1, G2, !Nat.eqb_refl. reflexivity.
Qed.
Print Assumptions C46_saved_exactly.
Example C46_saved_exactly_nonvacuous :
  let s := fun l : string => if String.eqb l "a" then Some (Grouped 2 3 (fun _ _ => 0%R)) else Some (Grouped 2 4 (fun _ _ => 0%R)) in
  save_inference_data s 0 ["a"; "a"]%string <> None /\ save_inference_data s 0 ["a"; "b"]%string = None.
Proof. split; [discriminate|reflexivity]. Qed.
(** distinct chains go to distinct files, none of them the combined file *)
Theorem C46_paths_distinct : forall i j, (chain_path i = chain_path j -> i = j) /\ chain_path i <> samples_path.
Proof. intros i j. split; [apply chain_path_inj|apply chain_path_samples]. Qed.
Print Assumptions C46_paths_distinct.
(** the names, in full: the number of the chain in decimal *)
Theorem C46_paths : samples_path = "numpyro_inference/samples.dat"%string
  /\ forall i, exists s, chain_path i = ("numpyro_inference/chain_" ++ s ++ ".dat")%string /\ numeral s i
     /\ (1 < String.length s -> String.get 0 s <> Some "0"%char).
Proof.
  split; [reflexivity|]. intros i. exists (NilEmpty.string_of_uint (Nat.to_uint i)). split; [reflexivity|]. split; [split|].
  - intros E. apply (unorm_nonnil (Nat.to_uint i)). rewrite to_uint_normal. apply nb_digits_0. now rewrite <- string_length, E.
  - pose proof (read_digits_value (Nat.to_uint i) 0 "") as R. cbn [Nat.mul Nat.add] in R.
    rewrite <- of_uint_value, Unsigned.of_to in R.
    assert (A : forall s, (s ++ "")%string = s) by (induction s; cbn; congruence). now rewrite A in R.
  - rewrite string_length. intros L G. pose proof (to_uint_normal i) as N. destruct (Nat.to_uint i) as [|d|d|d|d|d|d|d|d|d|d]; cbn in G; try discriminate G.
    pose proof (normal_lower (D0 d) N) as P. cbn [nb_digits] in L, P. rewrite Nat.sub_succ, Nat.sub_0_r in P. cbn [digits_value] in P.
    assert (Z : D0 d <> Decimal.zero) by (intros [= ->]; cbn in L; lia). specialize (P Z).
    pose proof (digits_value_bound d). lia.
Qed.
Print Assumptions C46_paths.
(** a configuration without a chain method is an error although it has no other fault *)
Theorem C46_chain_method_required_refuted : forall mcmc labels nd nc key, run_mcmc mcmc labels nd None nc key = None.
Proof. reflexivity. Qed.
Print Assumptions C46_chain_method_required_refuted.

(** five chains on two devices: two full batches and one of one chain *)
Example C46_nonvacuous :
  let mcmc := fun (k : rng) m (l : string) => Some (Grouped m 3 (fun c t => INR c)) in
  samples_of mcmc ["a"; "b"]%string 3 (fun _ _ _ c _ => INR c)
  /\ match run_mcmc mcmc ["a"; "b"]%string 2 (Some "parallel"%string) (Some 5) (Seed 0) with
     | Some ops => length ops = 8
     | None => False
     end.
Proof. split; [intros k m l _; reflexivity|vm_compute; reflexivity]. Qed.
