(** C96: which prior configurations are accepted. *)
From Coq Require Import String Reals Lra Lia List Bool Arith Sorting Permutation Relations.
From Verif Require Import Model_X Model_Joint Spec_Joint Proofs_Joint Model_Graph Spec_Graph Proofs_Graph.
From Verif Require Import Model_Guru Spec_Guru Proofs_Guru Props_Guru.
Import ListNotations.
Open Scope string_scope.
Open Scope list_scope.
Open Scope nat_scope.

Lemma map_opt_some {A B} (f : A -> option B) l :
  (forall a, In a l -> exists b, f a = Some b) -> exists r, map_opt f l = Some r.
Proof.
  induction l as [|a l IH]; intros H; [exists []; reflexivity|].
  destruct (H a) as (b & Hb); [now left|]. destruct IH as (r & Hr); [intros; apply H; now right|].
  exists (b :: r). simpl. now rewrite Hb, Hr.
Qed.

Lemma accepted_if {K} iter (iter_perm : forall l, Permutation (iter l) l)
      (params : list (string * pvalue K)) self_consts :
  NoDup (map fst params) ->
  (forall n f, ~ In (n, VLazy f []) params) ->
  (forall n, ~ In (n, VOther) params) ->
  (exists n m, sampled params n m) ->
  (forall n dep, needs params n dep -> exists m, sampled params dep m) ->
  ~ (exists n, clos_trans _ (needs params) n n) ->
  exists r, classify_model_parameters iter self_consts params = Some r.
Proof.
  intros Hn Hne Hno (n0 & m0 & Hs0) Hdep Hac.
  unfold classify_model_parameters. rewrite classify_spec by auto.
  assert (existsb is_other params = false) as ->.
  { apply not_true_iff_false. intros H. apply existsb_exists in H as ([n v] & Hin & Ho).
    unfold is_other in Ho. simpl in Ho. destruct v; try discriminate. eapply Hno; eauto. }
  pose proof (pass2_al (flat_map var_of params) params (flat_map const_of params) [] (fun n t H => match H with end)) as Hal.
  pose proof (pass2_al_keys (flat_map var_of params) params (flat_map const_of params) []) as Halk.
  pose proof (pass2_al_NoDup (flat_map var_of params) params (flat_map const_of params) [] (NoDup_nil _)) as Haln.
  destruct (fold_left (pass2_step (flat_map var_of params)) params (flat_map const_of params, [])) as [cs al].
  cbn [snd] in *. set (vs := flat_map var_of params) in *. set (names := sorted (map fst vs)).
  assert (Hvk : NoDup (map fst vs)) by (now apply var_keys).
  assert (Hnp : Permutation names (map fst vs)) by apply sorted_perm.
  assert (Hnn : NoDup names) by (eapply Permutation_NoDup; [apply Permutation_sym; exact Hnp|auto]).
  assert (Hin : forall n, In n names <-> exists m, sampled params n m).
  { intros n. split.
    - intros H. apply (Permutation_in _ Hnp) in H. apply in_map_iff in H as ([a m] & <- & H).
      exists m. now apply var_of_In.
    - intros (m & H). apply (Permutation_in _ (Permutation_sym Hnp)). change n with (fst (n, m)).
      apply in_map. now apply var_of_In. }
  assert (Hidx : exists idx, fold_left add_alias_index al (Some (combine names (seq 0 (length names)))) = Some idx).
  { assert (Hk : map fst (combine names (seq 0 (length names))) = names) by (apply combine_keys; now rewrite seq_length).
    assert (Hvt : forall n t, In (n, t) al -> exists m, sampled params t m).
    { intros n t H. apply Hal in H. apply din_iff in H. apply in_map_iff in H as ([a m] & <- & H).
      exists m. now apply var_of_In. }
    assert (Hstr : forall n, In n (map fst al) -> exists t, In (n, VStr t) params).
    { intros n H. destruct (Halk n H) as [[]|?]; auto. }
    assert (Hnot : forall n, In n (map fst al) -> ~ exists m, sampled params n m).
    { intros n H (m & Hm). apply Hstr in H as (t & Ht).
      destruct Hm as [(d & Hd & _)|(f & a & Hd & _)]; pose proof (same_entry _ _ _ _ Hn Ht Hd); discriminate. }
    destruct (alias_index_spec al (combine names (seq 0 (length names)))) as (idx & E & _); eauto; rewrite ?Hk.
    - intros n t H. rewrite ?Hk. apply Hin. eauto.
    - intros n t t' H1 H2. apply (In_dget _ _ _ Haln) in H1. apply (In_dget _ _ _ Haln) in H2. congruence.
    - intros n t H. rewrite ?Hk. rewrite Hin. apply Hnot. change n with (fst (n, t)). now apply in_map.
    - intros n t H Ht. apply (Hnot t Ht). eauto. }
  destruct Hidx as (idx & Eidx).
  assert (Hms : exists m ms, map_opt (dget vs) names = Some (m :: ms)).
  { destruct (map_opt_some (dget vs) names) as (ms & Hms).
    - intros a Ha. apply Hin in Ha as (m & Hm). exists m. apply In_dget; auto. now apply var_of_In.
    - assert (In n0 names) by (apply Hin; eauto). destruct (map_opt_In' _ _ _ _ Hms H) as (m & Hm & _).
      destruct ms as [|m1 ms]; [destruct Hm|eauto]. }
  destruct Hms as (m & ms & Hms).
  assert (Hpend : flat_map lazy_of params = [] -> forallb (fun m => negb (is_pending m)) (m :: ms) = true).
  { intros E. apply forallb_forall. intros x Hx. destruct (map_opt_In _ _ _ _ Hms Hx) as (n & _ & Hg).
    apply dget_In, var_of_In in Hg. destruct Hg as [(d & _ & ->)|(f & a & H & ->)]; auto. exfalso.
    assert (Hl : In (n, a) (flat_map lazy_of params)) by (apply lazy_of_In; eauto). rewrite E in Hl. destruct Hl. }
  destruct (flat_map lazy_of params) as [|z lz] eqn:Elz.
  - change (fun idx0 p => _) with add_alias_index. fold names. rewrite Eidx, Hms, (Hpend eq_refl). eauto.
  - destruct (check_cycles_spec (dep_graph iter params) (dep_graph_keys iter params)) as (b & -> & Hb).
    assert (Hnc : ~ cyclic (dep_graph iter params)).
    { intros (u & Hu). apply Hac. exists u.
      assert (G : forall x y, clos_trans _ (edge (dep_graph iter params)) x y -> clos_trans _ (needs params) y x).
      { intros x y H. induction H; [apply t_step; now apply (dep_graph_edge iter iter_perm)|eapply t_trans; eauto]. }
      now apply G. }
    destruct b; [exfalso; apply Hnc; now apply Hb|].
    destruct (topological_sort_spec (dep_graph iter params) (dep_graph_keys iter params) Hnc)
      as (order & -> & Tn & Tin & _).
    set (lo := filter (fun v => negb (mem v (flat_map root_of params))) order).
    assert (Hlo : forall n, In n lo <-> exists f args, In (n, VLazy f args) params).
    { intros n. unfold lo. rewrite filter_In, negb_true_iff, mem_not_In, root_of_In, Tin. split.
      - intros (Hnode & Hr).
        assert (Hs : exists m, sampled params n m).
        { apply (dep_graph_node iter iter_perm) in Hnode as [(d & f & a & k & H & _)|(n' & H)]; [|eauto].
          exists (Pending f). right. eauto. }
        destruct Hs as (m' & [(d & Hd & _)|(f & a & Hd & _)]); [exfalso; eauto|eauto].
      - intros (f & args & H). split.
        + right. destruct args as [|[k t] args]; [exfalso; eapply Hne; eauto|].
          exists t. apply (dep_graph_edge iter iter_perm). exists f, ((k, t) :: args), k. split; auto. now left.
        + intros (d & Hd). pose proof (same_entry _ _ _ _ Hn H Hd). discriminate. }
    assert (Hlz_nd : NoDup (map fst (z :: lz))) by (rewrite <- Elz; now apply lazy_keys).
    assert (Hlz_in : forall n args, In (n, args) (z :: lz) <-> exists f, In (n, VLazy f args) params).
    { intros n args. rewrite <- Elz. apply lazy_of_In. }
    assert (Hlen : length lo = length (z :: lz)).
    { rewrite <- (map_length fst (z :: lz)). apply Permutation_length. apply NoDup_Permutation; auto.
      - now apply NoDup_filter.
      - intros n. rewrite Hlo. split.
        + intros (f & a & H). change n with (fst (n, a)). apply in_map. apply Hlz_in. eauto.
        + intros H. apply in_map_iff in H as ([x a] & <- & H). apply Hlz_in in H as (f & H). eauto. }
    change (fun idx0 p => _) with add_alias_index. fold names. fold lo. rewrite Eidx, Hms.
    destruct lo as [|o os] eqn:Eo; [discriminate|].
    fold (dep_index names).
    destruct (map_opt_some (dep_index names) (z :: lz)) as (deps & Hd).
    { intros [n args] H. apply Hlz_in in H as (f & H). unfold dep_index. cbn [fst snd].
      destruct (index_of_In names n) as (i & ->); [apply Hin; exists (Pending f); right; eauto|].
      destruct (map_opt_some (fun q : string * string => option_map (fun j => (fst q, j)) (index_of names (snd q))) args) as (dep & ->); [|eauto].
      intros [k t] Hkt. cbn [fst snd]. destruct (index_of_In names t) as (j & ->); [|simpl; eauto].
      apply Hin. apply (Hdep n). exists f, args, k. auto. }
    destruct (map_opt_some (index_of names) (o :: os)) as (idxs & Hi).
    { intros n H. apply index_of_In, Hin. apply Hlo in H as (f & a & H). exists (Pending f). right; eauto. }
    rewrite Hd, Hi. rewrite (map_opt_length _ _ _ Hd), (map_opt_length _ _ _ Hi), Hlen, Nat.eqb_refl. eauto.
Qed.

(** With the entries get_processed_priors produces (a dependent prior has at least one argument to
    wait for), a configuration is accepted exactly if every entry has a known kind, at least one
    parameter is sampled, every argument of a dependent prior names a sampled parameter, and the
    dependencies have no cycle. *)
Theorem C96_accepted_iff :
  forall K (iter : list string -> list string), (forall l, Permutation (iter l) l) ->
  forall (params : list (string * pvalue K)) self_consts,
  NoDup (map fst params) ->
  (forall n f, ~ In (n, VLazy f []) params) ->
  ((exists r, classify_model_parameters iter self_consts params = Some r)
   <-> (forall n, ~ In (n, VOther) params)
       /\ (exists n m, sampled params n m)
       /\ (forall n dep, needs params n dep -> exists m, sampled params dep m)
       /\ ~ (exists n, clos_trans _ (needs params) n n)).
Proof.
  intros K iter iter_perm params self_consts Hn Hne. split.
  2:{ intros (H1 & H2 & H3 & H4). now apply accepted_if. }
  intros (r & Hr). split; [|split; [|split]].
  - intros n H. unfold classify_model_parameters in Hr. rewrite classify_spec in Hr by auto.
    assert (E : existsb is_other params = true).
    { apply existsb_exists. exists (n, VOther). split; auto. }
    rewrite E in Hr. discriminate.
  - pose proof (classification iter _ _ _ Hn Hr) as (_ & _ & Hin & Hl & _).
    assert (Hr' : r_marginals r <> []).
    { intros E. unfold classify_model_parameters in Hr. destruct (classify iter params) as [[? ? ? ? o]|]; [|discriminate].
      destruct (fold_left _ _ _); [|discriminate]. destruct (map_opt _ _) as [[|? ?]|]; try discriminate.
      destruct o.
      - destruct (forallb _ _); [|discriminate]. injection Hr as <-. discriminate.
      - destruct (map_opt _ _); [|discriminate]. destruct (map_opt _ _); [|discriminate].
        destruct (Nat.eqb _ _); [|discriminate]. injection Hr as <-. discriminate. }
    destruct (r_sorted r) as [|n l] eqn:Es.
    + destruct (r_marginals r); [congruence|discriminate].
    + exists n. apply Hin. now left.
  - intros n dep (f & args & k & Hl & Hka).
    destruct (lazy_prior_well_formed iter iter_perm params self_consts r _ Hn Hr (Permutation_refl _)) as (_ & _ & Hz).
    pose proof (classification iter _ _ _ Hn Hr) as (_ & _ & Hin & _).
    destruct (Hz n f args Hl) as (i & dl & _ & _ & HF). apply Hin.
    clear -HF Hka. induction HF as [|[k1 t1] [k2 b] args dl [H1 H2] _ IH]; [contradiction|].
    destruct Hka as [E|H]; auto. injection E as -> ->. eapply nth_error_In; eauto.
  - intros Hc. rewrite (lazy_cycle_rejected iter iter_perm params self_consts Hn Hc) in Hr. discriminate.
Qed.
Print Assumptions C96_accepted_iff.

(** The stronger claim that a dependent prior may refer to any parameter of the model fails: fixing
    that parameter to a number, or giving it as an alias, makes the whole configuration an error. *)
Theorem C96_fixed_or_alias_dependency_refuted :
  forall K (iter : list string -> list string), (forall l, Permutation (iter l) l) ->
  forall (params : list (string * pvalue K)) self_consts n dep,
  NoDup (map fst params) -> needs params n dep ->
  (exists x, In (dep, VNum x) params) \/ (exists t, In (dep, VStr t) params) ->
  classify_model_parameters iter self_consts params = None.
Proof.
  intros K iter iter_perm params self_consts n dep Hn (f & args & k & Hl & Hka) Hdep.
  destruct (classify_model_parameters iter self_consts params) as [r|] eqn:Hr; auto. exfalso.
  destruct (lazy_prior_well_formed iter iter_perm params self_consts r _ Hn Hr (Permutation_refl _)) as (_ & _ & Hz).
  pose proof (classification iter _ _ _ Hn Hr) as (_ & _ & Hin & _).
  destruct (Hz n f args Hl) as (i & dl & _ & _ & HF).
  assert (Hs : exists m, sampled params dep m).
  { apply Hin. clear -HF Hka. induction HF as [|[k1 t1] [k2 b] args dl [H1 H2] _ IH]; [contradiction|].
    destruct Hka as [E|H]; auto. injection E as -> ->. eapply nth_error_In; eauto. }
  destruct Hs as (m & [(d & Hd & _)|(g & a & Hd & _)]); destruct Hdep as [(x & Hx)|(t & Hx)];
    pose proof (same_entry _ _ _ _ Hn Hd Hx); discriminate.
Qed.
Print Assumptions C96_fixed_or_alias_dependency_refuted.

(** [ex_params] is accepted; with "a" fixed to 1 its two dependent priors make it an error *)
Example C96_nonvacuous :
  (exists r, ex_prior = Some r) /\ (forall n f, ~ In (n, VLazy f []) ex_params)
  /\ classify_model_parameters (fun l => l) []
       [("c", VLazy ex_lazy [("low", "a")]); ("a", VNum (Fin 1)); ("b", VDist ex_dist)] = None.
Proof.
  split; [eexists; reflexivity|]. split; [|reflexivity].
  intros n f H. repeat (destruct H as [H|H]; [discriminate|]). contradiction.
Qed.
