(** C17-C24: dependency order, parameter names, prior lookup, component parameters. *)
From Coq Require Import String Reals Lra Lia List Bool Arith Sorting Permutation Relations.
From Verif Require Import Model_X Model_Joint Spec_Joint Proofs_Joint Model_Graph Spec_Graph Proofs_Graph.
From Verif Require Import Model_Guru Spec_Guru Proofs_Guru Model_Config Spec_Config Proofs_Config.
Import ListNotations.
Open Scope string_scope.
Open Scope list_scope.
Open Scope nat_scope.

(** ** C17 *)
Theorem C17_topological_order :
  forall g : graph, NoDup (map fst g) -> ~ cyclic g ->
  exists r, topological_sort g = Some r /\ NoDup r /\ (forall x, In x r <-> node g x)
    /\ (forall u v, edge g u v -> before r u v).
Proof. exact topological_sort_spec. Qed.
Print Assumptions C17_topological_order.

(** the dependencies and the order handed to LazyJointDistribution: each lazy prior reads exactly
    the parameters its arguments name, and only ones that come earlier *)
Theorem C17_lazy_prior_well_formed :
  forall K (iter : list string -> list string), (forall l, Permutation (iter l) l) ->
  forall (params : list (string * pvalue K)) self_consts r independent,
  NoDup (map fst params) ->
  classify_model_parameters iter self_consts params = Some r ->
  Permutation independent (independent_of (r_order r) (length (r_marginals r))) ->
  deps_match (r_marginals r) (r_deps r) (length (r_marginals r))
  /\ respects (r_marginals r) (r_deps r) independent (r_order r)
  /\ (forall n f args, In (n, VLazy f args) params ->
        exists i dep, nth_error (r_sorted r) i = Some n /\ assoc_nat (r_deps r) i = Some dep
          /\ Forall2 (fun a d => fst d = fst a /\ nth_error (r_sorted r) (snd d) = Some (snd a)) args dep).
Proof. intros. eapply lazy_prior_well_formed; eauto. Qed.
Print Assumptions C17_lazy_prior_well_formed.

(** from the configuration to the density and the sampler: for scalar priors the log prior is the
    sum of the conditional log densities, and sampling never reads a value not yet drawn *)
Theorem C17_prior_density_and_sampling :
  forall K (iter : list string -> list string), (forall l, Permutation (iter l) l) ->
  forall (params : list (string * pvalue K)) self_consts r,
  NoDup (map fst params) ->
  classify_model_parameters iter self_consts params = Some r ->
  (forall n d, In (n, VDist d) params -> is_scalar d = true) ->
  (forall parts, length parts = length (r_marginals r) -> Forall (fun p => length p = 1) parts ->
     lazy_log_prob (fun _ => None) (r_marginals r) (r_deps r) (concat parts)
     = Some (chain_rule (r_deps r) (r_marginals r) parts))
  /\ (forall split_n (split : K -> K * K) key,
        exists v, lazy_sample split_n split (r_marginals r) (r_deps r) (r_order r)
                    (independent_of (r_order r) (length (r_marginals r))) key = Some v).
Proof.
  intros K iter iter_perm params self_consts r Hn Hr Hsc.
  destruct (lazy_prior_well_formed iter iter_perm params self_consts r _ Hn Hr (Permutation_refl _)) as (Hd & Hresp & _).
  split.
  - intros parts Hlen Hp. apply lazy_log_prob_spec.
    + assert (Hm : forall d, In (Ready d) (r_marginals r) -> is_scalar d = true).
      { pose proof (classification iter _ _ _ Hn Hr) as (_ & Hns & Hin & Hl & Hs & _).
        intros d Hd'. apply In_nth_error in Hd' as (i & Hi).
        assert (Hlt : i < length (r_sorted r)) by (rewrite <- Hl; apply nth_error_Some; congruence).
        destruct (nth_error (r_sorted r) i) as [n|] eqn:En; [|apply nth_error_None in En; lia].
        assert (Hin' : In n (r_sorted r)) by (eapply nth_error_In; eauto).
        apply Hin in Hin' as (m & Hm). destruct (Hs _ _ Hm) as (j & _ & Hj & Hmj).
        assert (i = j) as ->. { eapply NoDup_nth_error; eauto. congruence. }
        rewrite Hi in Hmj. injection Hmj as <-. destruct Hm as [(d' & Hd' & E)|(f & a & _ & E)]; [|discriminate].
        injection E as <-. eauto. }
      assert (G : forall i, lazy_cut (fun _ => None) i (r_marginals r) parts); [|apply G].
      clear -Hlen Hp Hm. intros i. revert i parts Hlen Hp.
      induction (r_marginals r) as [|m ms IH]; intros i [|p parts] Hlen Hp; try discriminate; simpl; auto.
      inversion Hp as [|? ? H1 H2]; subst. split.
      * rewrite H1. destruct m as [d|f]; simpl; auto.
        assert (Hd : is_scalar d = true) by (apply Hm; now left).
        destruct d as [[k|] lp su dr|l su]; simpl in Hd; try discriminate; reflexivity.
      * apply IH; auto. intros d Hd. apply Hm. now right.
    + assert (length (concat parts) = length parts) as ->.
      { clear -Hp. induction Hp as [|p parts H _ IH]; simpl; auto. rewrite app_length, H, IH. auto. }
      now rewrite Hlen.
  - intros split_n split key.
    edestruct (@lazy_sample_spec K) as (parts & Hp & _); [exact Hresp|]. rewrite Hp. eauto.
Qed.
Print Assumptions C17_prior_density_and_sampling.

(** a lazy prior that waits for two parameters, one of them lazy itself *)
Definition ex_dist : dist unit := Leaf None (fun _ => Fin 0) (fun _ => true) (fun _ => [Fin 1]).
Definition ex_lazy : list (string * list X) -> dist unit :=
  fun kw => Leaf None (fun _ => Fin 0) (fun _ => true) (fun _ => match kw with (_, [x]) :: _ => [x] | _ => [NaN] end).
Definition ex_params : list (string * pvalue unit) :=
  [("c", VLazy ex_lazy [("low", "b"); ("high", "a")]); ("b", VLazy ex_lazy [("low", "a")]); ("a", VDist ex_dist);
   ("k", VNum (Fin 2)); ("alias", VStr "b")].
Definition ex_prior := classify_model_parameters (fun l => l) [] ex_params.
Example C17_nonvacuous :
  NoDup (map fst ex_params)
  /\ option_map r_sorted ex_prior = Some ["a"; "b"; "c"] /\ option_map r_order ex_prior = Some [1; 2]
  /\ option_map r_deps ex_prior = Some [(2, [("low", 1); ("high", 0)]); (1, [("low", 0)])]
  /\ option_map r_index ex_prior = Some [("a", 0); ("b", 1); ("c", 2); ("alias", 1)]
  /\ option_map r_constants ex_prior = Some [("k", Some (Fin 2))]
  /\ topological_sort [("a", ["b"; "c"]); ("b", ["c"])] = Some ["a"; "b"; "c"].
Proof. repeat split; try reflexivity. repeat constructor; simpl; intuition discriminate. Qed.

(** ** C18 *)
Theorem C18_cycle_check_exact :
  forall g : graph, NoDup (map fst g) ->
  exists b, check_cycles g = Some b /\ (b = true <-> cyclic g).
Proof. exact check_cycles_spec. Qed.
Print Assumptions C18_cycle_check_exact.

Theorem C18_cyclic_configuration_rejected :
  forall K (iter : list string -> list string), (forall l, Permutation (iter l) l) ->
  forall (params : list (string * pvalue K)) self_consts,
  NoDup (map fst params) -> (exists n, clos_trans _ (needs params) n n) ->
  classify_model_parameters iter self_consts params = None.
Proof. intros. now apply lazy_cycle_rejected. Qed.
Print Assumptions C18_cyclic_configuration_rejected.

Example C18_nonvacuous :
  check_cycles [("a", ["b"]); ("b", ["c"]); ("c", ["d"; "b"])] = Some true
  /\ check_cycles [("a", ["b"; "c"]); ("b", ["d"]); ("c", ["d"])] = Some false
  /\ clos_trans _ (needs [("x", VLazy ex_lazy [("low", "y")]); ("y", VLazy ex_lazy [("low", "x")])]) "x" "x".
Proof.
  split; [reflexivity|]. split; [reflexivity|].
  apply t_trans with "y"; apply t_step.
  - exists ex_lazy, [("low", "y")], "low". split; now left.
  - exists ex_lazy, [("low", "x")], "low". split; [right|]; now left.
Qed.

(** ** C19 *)
Theorem C19_names_and_coordinates_aligned :
  forall K (iter : list string -> list string), (forall l, Permutation (iter l) l) ->
  forall (params : list (string * pvalue K)) self_consts r,
  NoDup (map fst params) ->
  classify_model_parameters iter self_consts params = Some r ->
  Sorted str_le (r_sorted r) /\ NoDup (r_sorted r)
  /\ (forall n, In n (r_sorted r) <-> exists m, sampled params n m)
  /\ length (r_marginals r) = length (r_sorted r)
  /\ (forall n m, sampled params n m ->
        exists i, dget (r_index r) n = Some i /\ nth_error (r_sorted r) i = Some n
                  /\ nth_error (r_marginals r) i = Some m)
  /\ (forall n t m, In (n, VStr t) params -> sampled params t m ->
        dget (r_index r) n = dget (r_index r) t)
  /\ (forall n c, given_constant params n c -> ~ In n (map fst self_consts) ->
        dget (r_constants r) n = Some c)
  /\ (forall n t c, In (n, VStr t) params -> given_constant params t c -> ~ In n (map fst self_consts) ->
        dget (r_constants r) n = Some c)
  /\ (forall n i, dget (r_index r) n = Some i -> i < length (r_marginals r)).
Proof. intros. eapply classification; eauto. Qed.
Print Assumptions C19_names_and_coordinates_aligned.

Example C19_nonvacuous : exists r, ex_prior = Some r /\ sampled ex_params "b" (Pending ex_lazy)
  /\ In ("alias", VStr "b") ex_params /\ given_constant ex_params "k" (Some (Fin 2)).
Proof.
  destruct ex_prior as [r|] eqn:E; [|vm_compute in E; discriminate]. exists r. split; auto.
  unfold sampled, given_constant, ex_params. simpl. split; [|split; [tauto|]].
  - right. exists ex_lazy, [("low", "a")]. tauto.
  - right. exists (Fin 2). tauto.
Qed.

(** ** C20.  Aliases of aliases and aliases of unknown names are dropped without an error. *)
Theorem C20_alias_chain_refuted :
  exists (params : list (string * pvalue unit)) r,
    NoDup (map fst params)
    /\ In ("x", VStr "y") params /\ In ("y", VStr "z") params /\ In ("z", VDist ex_dist) params
    /\ classify_model_parameters (fun l => l) [] params = Some r
    /\ dget (r_constants r) "x" = None /\ dget (r_index r) "x" = None /\ ~ In "x" (r_sorted r).
Proof.
  exists [("x", VStr "y"); ("y", VStr "z"); ("z", VDist ex_dist)].
  eexists. split; [repeat constructor; simpl; intuition discriminate|].
  do 3 (split; [simpl; tauto|]). split; [reflexivity|]. repeat split. simpl. intuition discriminate.
Qed.
Print Assumptions C20_alias_chain_refuted.

Theorem C20_dangling_alias_refuted :
  exists (params : list (string * pvalue unit)) r,
    NoDup (map fst params) /\ In ("x", VStr "mistyped") params
    /\ classify_model_parameters (fun l => l) [] params = Some r
    /\ dget (r_constants r) "x" = None /\ dget (r_index r) "x" = None /\ ~ In "x" (r_sorted r).
Proof.
  exists [("x", VStr "mistyped"); ("z", VDist ex_dist)].
  eexists. split; [repeat constructor; simpl; intuition discriminate|].
  split; [simpl; tauto|]. split; [reflexivity|]. repeat split. simpl. intuition discriminate.
Qed.
Print Assumptions C20_dangling_alias_refuted.

(** what holds: numbers, nulls, distributions, lazy distributions, and aliases of any of these *)
Theorem C20_direct_entries_kept_partial :
  forall K (iter : list string -> list string), (forall l, Permutation (iter l) l) ->
  forall (params : list (string * pvalue K)) self_consts r n v,
  NoDup (map fst params) ->
  classify_model_parameters iter self_consts params = Some r ->
  In (n, v) params ->
  (forall t, v = VStr t -> exists w, In (t, w) params /\ forall t', w <> VStr t') ->
  (exists c, dget (r_constants r) n = Some c) \/ (exists i, dget (r_index r) n = Some i).
Proof. intros. eapply direct_entries_kept; eauto. Qed.
Print Assumptions C20_direct_entries_kept_partial.

(** ** C21 *)
(** an exact entry with value 0 loses against an earlier or later pattern *)
Theorem C21_zero_value_refuted :
  exists (fullmatch : string -> string -> bool) c n v,
    (forall s, fullmatch s s = true) /\ dget c n = Some v
    /\ dget (match_all fullmatch [n] c) n = Some (CNum (Fin 1)) /\ v = CNum (Fin 0).
Proof.
  exists (fun p s => String.eqb p ".*" || String.eqb p s), [(".*", CNum (Fin 1)); ("a", CNum (Fin 0))], "a", (CNum (Fin 0)).
  split; [intros s; rewrite String.eqb_refl; apply orb_true_r|]. repeat split.
  unfold match_all, match_step. cbn. destruct (Req_EM_T 0 0); [reflexivity|congruence].
Qed.
Print Assumptions C21_zero_value_refuted.

(** an alias requested before its target is replaced by the value of a pattern that matches the
    target, although the target has its own entry *)
Theorem C21_alias_overridden_refuted :
  exists (fullmatch : string -> string -> bool) c (d : cval),
    (forall s, fullmatch s s = true) /\ dget c "b" = Some (CStr "z") /\ dget c "z" = Some d /\ is_dict d = true
    /\ dget (match_all fullmatch ["b"; "z"] c) "z" = Some d
    /\ dget (match_all fullmatch ["b"; "z"] c) "b" = Some (CNum (Fin 3)).
Proof.
  exists (fun p s => String.eqb p ".*" || String.eqb p s),
         [("z", CDict [("dist", CStr "Uniform")]); ("b", CStr "z"); (".*", CNum (Fin 3))],
         (CDict [("dist", CStr "Uniform")]).
  split; [intros s; rewrite String.eqb_refl; apply orb_true_r|]. repeat split.
Qed.
Print Assumptions C21_alias_overridden_refuted.

(** what holds: an exact entry that is neither falsy nor an alias is used unchanged, whatever the
    patterns; without a usable exact entry the first matching pattern decides; an alias ends as
    itself, as the value of a pattern matching its target, or as null *)
Theorem C21_exact_entry_used_partial :
  forall fullmatch c strings n v,
  In n strings -> dget c n = Some v -> truthy v = true -> (forall t, v <> CStr t) ->
  dget (match_all fullmatch strings c) n = Some v.
Proof. exact exact_entry. Qed.
Print Assumptions C21_exact_entry_used_partial.

Theorem C21_first_pattern_otherwise_partial :
  forall fullmatch c strings n,
  In n strings -> (forall v, dget c n = Some v -> truthy v = false) ->
  dget (match_all fullmatch strings c) n
  = Some (match find (fun p => fullmatch (fst p) n) c with Some p => snd p | None => CNull end).
Proof.
  intros fullmatch c strings n H1 H2. rewrite pattern_entry by auto. f_equal.
  clear. induction c as [|[p v] c IH]; simpl; auto. destruct (fullmatch p n); auto.
Qed.
Print Assumptions C21_first_pattern_otherwise_partial.

Theorem C21_alias_outcomes_partial :
  forall fullmatch c strings n t,
  In n strings -> dget c n = Some (CStr t) -> t <> EmptyString ->
  exists w, dget (match_all fullmatch strings c) n = Some w
    /\ (w = CStr t \/ w = CNull \/ exists p, In (p, w) c /\ fullmatch p t = true /\ is_dict w = false).
Proof. exact alias_entry. Qed.
Print Assumptions C21_alias_outcomes_partial.

Example C21_nonvacuous :
  let c := [(".*", CNum (Fin 3)); ("a", CDict [("dist", CStr "Uniform")]); ("b", CStr "a")] in
  dget (match_all (fun p s => String.eqb p ".*" || String.eqb p s) ["a"; "b"; "e"] c) "a"
    = Some (CDict [("dist", CStr "Uniform")])
  /\ dget (match_all (fun p s => String.eqb p ".*" || String.eqb p s) ["a"; "b"; "e"] c) "b" = Some (CStr "a")
  /\ dget (match_all (fun p s => String.eqb p ".*" || String.eqb p s) ["a"; "b"; "e"] c) "e" = Some (CNum (Fin 3))
  /\ truthy (CDict [("dist", CStr "Uniform")]) = true.
Proof. repeat split. Qed.

(** ** C22: the check can never fire; a parameter without a prior becomes the constant None *)
Theorem C22_missing_prior_accepted_refuted :
  exists (fullmatch : string -> string -> bool) c n r,
    (forall s, fullmatch s s = true) /\ (forall p v, In (p, v) c -> fullmatch p n = false)
    /\ get_processed_priors fullmatch (fun _ => true) (fun _ _ _ => ex_dist) ["m"; n] c = Some r
    /\ dget r n = Some VNone.
Proof.
  exists String.eqb, [("m", CNum (Fin 1))], "alpha". eexists.
  split; [apply String.eqb_refl|]. split; [intros p v [H|[]]; injection H as <- <-; reflexivity|].
  unfold get_processed_priors, match_all, match_step. cbn.
  destruct (Req_EM_T 1 0); [lra|]. split; reflexivity.
Qed.
Print Assumptions C22_missing_prior_accepted_refuted.

Theorem C22_missing_prior_becomes_none_partial :
  forall fullmatch K available (make : string -> list (string * cval) -> list (string * list X) -> dist K) params c r n,
  get_processed_priors fullmatch available make params c = Some r ->
  In n params -> dget c n = None -> (forall p v, In (p, v) c -> fullmatch p n = false) ->
  dget r n = Some VNone.
Proof. intros. eapply missing_prior_is_null; eauto. Qed.
Print Assumptions C22_missing_prior_becomes_none_partial.

Theorem C22_every_parameter_matched_partial :
  forall fullmatch c strings n, In n strings -> exists v, dget (match_all fullmatch strings c) n = Some v.
Proof. exact match_all_total. Qed.
Print Assumptions C22_every_parameter_matched_partial.

Theorem C22_only_bad_distributions_raise_partial :
  forall fullmatch K available (make : string -> list (string * cval) -> list (string * list X) -> dist K) params c,
  (forall k fields, In (k, CDict fields) (match_all fullmatch params c) ->
     exists name, dget fields "dist" = Some (CStr name) /\ name <> EmptyString /\ available name = true) ->
  exists r, get_processed_priors fullmatch available make params c = Some r.
Proof.
  intros fullmatch K available make params c H. apply processing_succeeds.
  intros v (k & Hv). destruct v as [|x|s|fields|b]; try (simpl; discriminate).
  destruct (H k fields Hv) as (name & E & Hne & Ha). cbn [process]. rewrite E, Ha.
  destruct (String.eqb_spec name ""); [contradiction|]. simpl.
  destruct (existsb is_str _); discriminate.
Qed.
Print Assumptions C22_only_bad_distributions_raise_partial.

(** ** C23 *)
Theorem C23_component_parameter_precedence :
  forall V (params : list (string * option V)) name i necessary default,
  (* name_i *)
  (forall v, dget params (numbered name i) = Some (Some v) ->
     get_parameter params [numbered name i; name] necessary default = Some (Some v))
  (* name *)
  /\ (forall v, dget params (numbered name i) = None -> dget params name = Some (Some v) ->
     get_parameter params [numbered name i; name] necessary default = Some (Some v))
  (* default, error *)
  /\ (dget params (numbered name i) = None -> dget params name = None ->
     get_parameter params [numbered name i; name] necessary default
     = match default with Some d => Some (Some d) | None => if necessary then None else Some None end).
Proof.
  intros V params name i necessary default. unfold get_parameter. simpl.
  split; [|split]; intros *; intros ->; auto.
  - now intros ->.
  - now intros ->.
Qed.
Print Assumptions C23_component_parameter_precedence.

(** only these two entries matter: nothing given for another component, or for another name, can
    change the parameter of component [i] *)
Theorem C23_other_components_irrelevant :
  forall V (params params' : list (string * option V)) name i necessary default,
  (forall j, j <> i -> numbered name j <> numbered name i /\ numbered name j <> name) /\
  (dget params (numbered name i) = dget params' (numbered name i) -> dget params name = dget params' name ->
   get_parameter params [numbered name i; name] necessary default
   = get_parameter params' [numbered name i; name] necessary default).
Proof.
  intros. split.
  - intros j Hj. split; [intros E; apply Hj; eapply numbered_inj; eauto|apply numbered_not_plain].
  - intros H1 H2. unfold get_parameter. simpl. now rewrite H1, H2.
Qed.
Print Assumptions C23_other_components_irrelevant.

(** a null under name_i hides a value given under name: it yields the default or an error *)
Theorem C23_null_hides_shared_value_refuted :
  exists (params : list (string * option nat)) name i,
    dget params (numbered name i) = Some None /\ dget params name = Some (Some 7)
    /\ get_parameter params [numbered name i; name] false (Some 1) = Some (Some 1)
    /\ get_parameter params [numbered name i; name] true None = None.
Proof. exists [("alpha_0", None); ("alpha", Some 7)], "alpha", 0. repeat split. Qed.
Print Assumptions C23_null_hides_shared_value_refuted.

Example C23_nonvacuous :
  let params := [("alpha", Some 7); ("alpha_10", Some 8); ("alpha_1", Some 9)] in
  map (fun i => get_parameter params [numbered "alpha" i; "alpha"] true None) [0; 1; 10]
  = [Some (Some 7); Some (Some 9); Some (Some 8)]
  /\ get_parameter params [numbered "beta" 0; "beta"] true None = (None : option (option nat)).
Proof. split; reflexivity. Qed.

(** ** C24 *)
Theorem C24_wiping_rates_distinct_columns_partial :
  forall A (mapping : list (string * nat)) (rows : list (list A)) (ncols : nat),
  NoDup (map fst mapping) -> NoDup (map snd mapping) ->
  (forall n i, In (n, i) mapping -> i < ncols) -> Forall (fun r => length r = ncols) rows ->
  exists mapping',
    wipe_log_rate mapping rows
    = Some (mapping', map (kept 0 (rate_columns mapping)) rows, filter (starts_with "log_rate") (map fst mapping))
    /\ map fst mapping' = filter (fun n => negb (starts_with "log_rate" n)) (map fst mapping)
    /\ (forall n i, In (n, i) mapping -> starts_with "log_rate" n = false ->
          exists i', dget mapping' n = Some i'
            /\ (forall row, In row rows -> nth_error (kept 0 (rate_columns mapping) row) i' = nth_error row i))
    /\ (forall n i m j i' j', In (n, i) mapping -> In (m, j) mapping ->
          dget mapping' n = Some i' -> dget mapping' m = Some j' -> (i < j <-> i' < j')).
Proof. intros. eapply wipe_spec; eauto. Qed.
Print Assumptions C24_wiping_rates_distinct_columns_partial.

(** two rates sharing a column (one an alias of the other): the second removal deletes the column
    of another parameter *)
Theorem C24_shared_column_refuted :
  exists mapping (rows : list (list nat)) mapping' rows' consts,
    wipe_log_rate mapping rows = Some (mapping', rows', consts)
    /\ dget mapping "m" = Some 1 /\ map (fun r => nth_error r 1) rows = [Some 10]
    /\ (forall i, dget mapping' "m" = Some i -> map (fun r => nth_error r i) rows' = [Some 20]).
Proof.
  exists [("log_rate_0", 0); ("log_rate_1", 0); ("m", 1); ("z", 2)], [[5; 10; 20]].
  do 3 eexists. split; [reflexivity|]. repeat split. intros i H. injection H as <-. reflexivity.
Qed.
Print Assumptions C24_shared_column_refuted.

Example C24_nonvacuous :
  wipe_log_rate [("a", 0); ("log_rate_0", 1); ("m", 3); ("log_rate_1", 2)] [[5; 10; 20; 30]; [6; 11; 21; 31]]
  = Some ([("a", 0); ("m", 1)], [[5; 30]; [6; 31]], ["log_rate_0"; "log_rate_1"]).
Proof. reflexivity. Qed.
