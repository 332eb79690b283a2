(** C07 for the priors the front ends build, dependent priors included. *)
From Coq Require Import String Reals Lra Lia List Bool Arith Sorting Permutation Relations.
From Verif Require Import Model_X Spec_X Proofs_X Model_Likelihood Proofs_Likelihood Model_Joint Spec_Joint Proofs_Joint.
From Verif Require Import Model_Guru Spec_Guru Proofs_Guru Props_Guru.
From Verif Require Import Model_NumpyroSites Spec_NumpyroSites Proofs_NumpyroSites.
Import ListNotations.
Open Scope string_scope.
Open Scope list_scope.
Open Scope nat_scope.

Lemma ready_scalar {K} iter (iter_perm : forall l, Permutation (iter l) l) (params : list (string * pvalue K)) self_consts r :
  NoDup (map fst params) ->
  classify_model_parameters iter self_consts params = Some r ->
  (forall n d, In (n, VDist d) params -> is_scalar d = true) ->
  forall d, In (Ready d) (r_marginals r) -> is_scalar d = true.
Proof.
  intros Hn Hr Hsc. pose proof (classification iter _ _ _ Hn Hr) as (_ & Hns & Hin & Hl & Hs & _).
  intros d Hd'. apply In_nth_error in Hd' as (i & Hi).
  assert (Hlt : i < length (r_sorted r)) by (rewrite <- Hl; apply nth_error_Some; congruence).
  destruct (nth_error (r_sorted r) i) as [n|] eqn:En; [|apply nth_error_None in En; lia].
  assert (Hin' : In n (r_sorted r)) by (eapply nth_error_In; eauto).
  apply Hin in Hin' as (m & Hm). destruct (Hs _ _ Hm) as (j & _ & Hj & Hmj).
  assert (i = j) as ->. { eapply NoDup_nth_error; eauto. congruence. }
  rewrite Hi in Hmj. injection Hmj as <-. destruct Hm as [(d' & Hd' & E)|(f & a & _ & E)]; [|discriminate].
  injection E as <-. eauto.
Qed.

Lemma all_ready_chain {K} (deps : dependencies) (v : list X) (ms : list (@marginal K)) : forall parts k,
  (forall m, In m ms -> exists d, m = Ready d) -> length parts = length ms ->
  exists ds, all_ready ms = Some ds /\ length ds = length ms
    /\ (forall d, In d ds -> In (Ready d) ms)
    /\ map (fun p => log_prob (fst p) (snd p)) (combine ds parts)
       = map (fun p => log_prob (conditional deps (fst (snd p)) (fst p) v) (snd (snd p)))
             (combine (seq k (length ms)) (combine ms parts)).
Proof.
  induction ms as [|m ms IH]; intros [|p parts] k H Hl; try discriminate.
  - exists []. repeat split; auto.
  - destruct (H m) as (d & ->); [now left|].
    destruct (IH parts (S k)) as (ds & E & Hds & Hin & Hmap); [intros; apply H; now right|simpl in Hl; congruence|].
    exists (d :: ds). cbn [all_ready]. rewrite E. repeat split; auto.
    + simpl; congruence.
    + intros d' [<-|Hd']; [now left|right; auto].
    + cbn [combine seq length map fst snd conditional]. now rewrite Hmap.
Qed.

Lemma prior_is_chain {K} iter (iter_perm : forall l, Permutation (iter l) l) (params : list (string * pvalue K)) self_consts r parts :
  NoDup (map fst params) ->
  classify_model_parameters iter self_consts params = Some r ->
  (forall n d, In (n, VDist d) params -> is_scalar d = true) ->
  length parts = length (r_marginals r) -> List.Forall (fun p => length p = 1) parts ->
  prior_log_prob r (concat parts) = chain_rule (r_deps r) (r_marginals r) parts.
Proof.
  intros Hn Hr Hsc Hl Hp.
  pose proof (C17_prior_density_and_sampling K iter iter_perm params self_consts r Hn Hr Hsc) as (Hlazy & _).
  unfold prior_log_prob. destruct (r_order r) as [|o order] eqn:Eo.
  2:{ now rewrite (Hlazy parts Hl Hp). }
  destruct (lazy_prior_well_formed iter iter_perm params self_consts r _ Hn Hr (Permutation_refl _)) as (_ & (_ & Hind & _) & _).
  rewrite Eo in Hind.
  destruct (all_ready_chain (r_deps r) (concat parts) (r_marginals r) parts 0) as (ds & E & Hds & Hin & Hmap); auto.
  { intros m Hm. apply In_nth_error in Hm as (i & Hi). destruct (Hind i) as (d & Hd).
    - unfold independent_of. apply filter_In. split; auto. apply in_seq.
      assert (i < length (r_marginals r)) by (apply nth_error_Some; congruence). lia.
    - exists d. congruence. }
  rewrite E, joint_log_prob_spec.
  - unfold sum_log_probs, chain_rule. now rewrite Hmap.
  - assert (Hs : forall d, In d ds -> is_scalar d = true).
    { intros d Hd. eapply (ready_scalar iter iter_perm); eauto. }
    unfold cut_as. assert (L : length ds = length parts) by congruence. clear -Hs L Hp.
    revert parts L Hp. induction ds as [|d ds IH]; intros [|p parts] L Hp; try discriminate; constructor.
    + inversion Hp; subst. rewrite scalar_size; auto. apply Hs. now left.
    + inversion Hp; subst. apply IH; auto. intros d' Hd'. apply Hs. now right.
Qed.

(** Running the NumPyro model on the priors the front end built: every sampled parameter is declared
    as a site exactly once, a prior that depends on other parameters is declared after them with the
    values drawn for them, the values come out in the order of the coordinates of the prior, and the
    log densities of the sites add up to the log density of the prior at those values. *)
Theorem C07_sites_are_the_prior :
  forall K (iter : list string -> list string), (forall l, Permutation (iter l) l) ->
  forall (params : list (string * pvalue K)) self_consts r handler,
  NoDup (map fst params) ->
  classify_model_parameters iter self_consts params = Some r ->
  (forall n d, In (n, VDist d) params -> is_scalar d = true) ->
  (forall n d, length (handler n d) = 1) ->
  exists sites values,
    numpyro_sites handler r = Some (sites, values)
    /\ Permutation (map s_name sites) (r_sorted r)
    /\ (forall s, In s sites -> s_value s = handler (s_name s) (s_dist s))
    /\ Forall2 (site_value sites) (r_sorted r) values
    /\ (forall n d s, In (n, VDist d) params -> In s sites -> s_name s = n -> s_dist s = d)
    /\ (forall n f args s, In (n, VLazy f args) params -> In s sites -> s_name s = n ->
          exists kwargs, s_dist s = f kwargs
            /\ Forall2 (fun a kw => fst kw = fst a /\ site_value sites (snd a) (snd kw)) args kwargs)
    /\ (forall n dep, needs params n dep -> site_after sites dep n)
    /\ sites_log_density sites = prior_log_prob r (concat values).
Proof.
  intros K iter iter_perm params self_consts r handler Hn Hr Hsc Hh.
  pose proof (classification iter _ _ _ Hn Hr) as (_ & Hns & Hinn & Hl & Hs & _).
  destruct (lazy_prior_well_formed iter iter_perm params self_consts r _ Hn Hr (Permutation_refl _)) as (Hd & Hresp & Hlz).
  destruct (sites_final handler r (eq_sym Hl) Hd Hresp) as (V & E & HV).
  set (S := site_v (r_sorted r) (r_marginals r) (r_deps r) V) in *.
  set (ind := independent_of (r_order r) (length (r_marginals r))) in *.
  set (done := ind ++ r_order r) in *.
  set (n0 := length (r_marginals r)) in *.
  pose proof Hresp as (Hperm & _ & Hpo). fold done n0 in Hperm.
  exists (map S done), (map V (seq 0 n0)). split; [exact E|].
  assert (Hseq : forall i, In i done <-> i < n0).
  { intros i. split; intros H.
    - apply (Permutation_in _ Hperm) in H. apply in_seq in H. unfold n0. lia.
    - apply (Permutation_in _ (Permutation_sym Hperm)). apply in_seq. unfold n0 in H. lia. }
  assert (Hname : forall i, s_name (S i) = nth i (r_sorted r) "") by reflexivity.
  assert (Hval : forall i, s_value (S i) = V i) by reflexivity.
  assert (Hsv : forall i n, nth_error (r_sorted r) i = Some n -> site_value (map S done) n (V i)).
  { intros i n Hi. exists (S i). split; [|split; auto].
    - apply in_map. apply Hseq. rewrite Hl. apply nth_error_Some. congruence.
    - rewrite Hname. now apply nth_error_nth. }
  assert (Hnames : map (fun i => nth i (r_sorted r) "") (seq 0 n0) = r_sorted r).
  { rewrite Hl. clear. induction (r_sorted r) as [|a l IH]; auto.
    cbn [length seq map nth]. f_equal. rewrite <- seq_shift, map_map. exact IH. }
  assert (Huniq : forall i n j, In i done -> s_name (S i) = n -> nth_error (r_sorted r) j = Some n -> i = j).
  { intros i n j Hi Hin Hj. apply Hseq in Hi. rewrite Hl in Hi.
    eapply NoDup_nth_error; eauto. rewrite Hj. rewrite Hname in Hin.
    rewrite <- Hin. now apply nth_error_nth'. }
  assert (H1 : List.Forall (fun p => length p = 1) (map V (seq 0 n0))).
  { apply List.Forall_forall. intros x Hx. apply in_map_iff in Hx as (i & <- & Hi). apply in_seq in Hi.
    rewrite HV by (unfold n0 in Hi; lia). auto. }
  split; [|split; [|split; [|split; [|split; [|split]]]]].
  - rewrite map_map.
    apply (Permutation_map (fun i => nth i (r_sorted r) "")) in Hperm. rewrite Hnames in Hperm. exact Hperm.
  - intros s Hsi. apply in_map_iff in Hsi as (i & <- & Hi). apply Hseq in Hi. rewrite Hval, Hname. now apply HV.
  - assert (G : forall k l, (forall i n, nth_error l i = Some n -> site_value (map S done) n (V (k + i))) ->
        Forall2 (site_value (map S done)) l (map V (seq k (length l)))).
    { intros k l. revert k. induction l as [|a l IH]; intros k H; constructor.
      - rewrite <- (Nat.add_0_r k). apply H. reflexivity.
      - apply IH. intros i n Hi. specialize (H (Datatypes.S i) n Hi). now rewrite Nat.add_succ_r in H. }
    rewrite Hl. apply G. exact Hsv.
  - intros n d s Hin Hsi Hsn. apply in_map_iff in Hsi as (i & <- & Hi).
    destruct (Hs n (Ready d)) as (j & _ & Hj & Hm); [left; eauto|].
    assert (i = j) as -> by eauto. unfold S, site_v. simpl. now rewrite (nth_error_nth _ _ dummy Hm).
  - intros n f args s Hin Hsi Hsn. apply in_map_iff in Hsi as (i & <- & Hi).
    destruct (Hs n (Pending f)) as (j & _ & Hj & Hm); [right; eauto|].
    assert (i = j) as -> by eauto. unfold S at 1, site_v. simpl. rewrite (nth_error_nth _ _ dummy Hm). simpl.
    destruct (Hlz n f args Hin) as (j' & dep & Hj' & Ha & HF).
    assert (j = j') as <-.
    { apply (proj1 (NoDup_nth_error (r_sorted r)) Hns); [apply nth_error_Some|]; congruence. }
    rewrite Ha. eexists. split; [reflexivity|]. clear -HF Hsv.
    induction HF as [|[k t] [k' b] args dep [H1 H2] _ IH]; constructor; auto. simpl in *. subst. split; auto.
  - intros n t (f & args & k & Hin & Hka).
    destruct (Hlz n f args Hin) as (j & dep & Hj & Ha & HF).
    assert (Hb : exists b, In (k, b) dep /\ nth_error (r_sorted r) b = Some t).
    { clear -HF Hka. induction HF as [|[k1 t1] [k2 b] args dep [H1 H2] _ IH]; [contradiction|].
      destruct Hka as [Ek|Hka].
      - injection Ek as -> ->. simpl in *. subst k2. exists b. simpl; auto.
      - destruct (IH Hka) as (b' & Hb' & E). exists b'. simpl; auto. }
    destruct Hb as (b & Hb & Hbt).
    assert (Hjo : In j (r_order r)).
    { destruct Hresp as (_ & Hind & _). assert (Hjd : In j done).
      { apply Hseq. rewrite Hl. apply nth_error_Some. congruence. }
      unfold done in Hjd. apply in_app_or in Hjd as [Hjd|]; auto. destruct (Hind j Hjd) as (d & Hdj).
      destruct Hd as (_ & Hdp & _). apply Proofs_Joint.assoc_nat_In in Ha.
      assert (In j (map fst (r_deps r))) by (change j with (fst (j, dep)); now apply in_map).
      apply Hdp in H as (g & Hg). congruence. }
    apply in_split in Hjo as (pre & post & Ho). destruct (Hpo _ _ _ Ho) as (dep' & Ha' & Hbefore).
    assert (dep' = dep) as -> by congruence. apply Hbefore in Hb. apply in_split in Hb as (p1 & p2 & Hsplit).
    exists (map S p1), (S b), (map S p2), (S j), (map S post). repeat split.
    + unfold done. rewrite Ho, app_assoc, Hsplit. rewrite <- app_assoc. rewrite !map_app. simpl.
      now rewrite ?map_app.
    + rewrite Hname. now apply nth_error_nth.
    + rewrite Hname. now apply nth_error_nth.
  - rewrite (prior_is_chain iter iter_perm params self_consts r) by
      (auto; rewrite map_length, seq_length; reflexivity).
    unfold n0 at 1. rewrite (chain_rule_sites (r_sorted r)) by auto. unfold sites_log_density. rewrite map_map.
    fold S n0. apply xsum_permutation.
    apply (Permutation_map (fun i => log_prob (s_dist (S i)) (V i))) in Hperm. exact Hperm.
Qed.
Print Assumptions C07_sites_are_the_prior.

(** Hence the two backends have the same log posterior, for the dependent priors too: wherever the
    flowMC target is finite it equals what NumPyro accumulates over its sites and its factor. *)
Theorem C07_dependent_priors_agree :
  forall K (iter : list string -> list string), (forall l, Permutation (iter l) l) ->
  forall (params : list (string * pvalue K)) self_consts r handler,
  NoDup (map fst params) ->
  classify_model_parameters iter self_consts params = Some r ->
  (forall n d, In (n, VDist d) params -> is_scalar d = true) ->
  (forall n d, length (handler n d) = 1) ->
  forall big D (dist_fn : Model_Likelihood.params -> model D) mu supp const wf cs bs,
  exists sites values,
    numpyro_sites handler r = Some (sites, values)
    /\ forall t, flowmc_likelihood dist_fn mu (prior_log_prob r) supp (r_index r) const wf cs (concat values) bs = Fin t ->
       xadd (sites_log_density sites)
            (numpyro_factor dist_fn mu big (r_index r) const wf cs (concat values) bs) = Fin t.
Proof.
  intros K iter iter_perm params self_consts r handler Hn Hr Hsc Hh big D dist_fn mu supp const wf cs bs.
  destruct (C07_sites_are_the_prior K iter iter_perm params self_consts r handler Hn Hr Hsc Hh)
    as (sites & values & E & Hp & Hv & HF & _ & _ & _ & Hlp).
  exists sites, values. split; auto. intros t Ht. rewrite Hlp.
  eapply backends_agree; [|exact Ht].
  intros p Hin. apply (index_bound iter params self_consts r Hr) in Hin.
  pose proof (classification iter _ _ _ Hn Hr) as (_ & _ & _ & Hl & _).
  assert (length (concat values) = length (r_sorted r)); [|lia].
  assert (H1 : List.Forall (fun x => length x = 1) values).
  { clear -HF Hv Hh. induction HF as [|n x l vs (s & Hs & _ & <-) _ IH]; constructor; auto. rewrite (Hv s Hs). auto. }
  assert (length values = length (r_sorted r)) as <- by (clear -HF; induction HF; simpl; auto).
  clear -H1. induction H1 as [|x l H _ IH]; simpl; auto. rewrite app_length, H, IH. auto.
Qed.
Print Assumptions C07_dependent_priors_agree.

(** the priors of [ex_params]: b depends on a, and c on both *)
Definition ex_handler (n : string) (d : dist unit) : list X := [Fin (if String.eqb n "a" then 1 else 2)%R].
Example C07_sites_nonvacuous :
  (forall n d, In (n, VDist d) ex_params -> is_scalar d = true)
  /\ (forall n d, length (ex_handler n d) = 1)
  /\ exists r, ex_prior = Some r
     /\ option_map (fun p => map s_name (fst p)) (numpyro_sites ex_handler r) = Some ["a"; "b"; "c"]
     /\ option_map snd (numpyro_sites ex_handler r) = Some [[Fin 1]; [Fin 2]; [Fin 2]].
Proof.
  split; [|split; [reflexivity|]].
  - intros n d H. repeat (destruct H as [H|H]; [try discriminate; injection H as <- <-; reflexivity|]). contradiction.
  - eexists. split; [reflexivity|]. split; reflexivity.
Qed.
