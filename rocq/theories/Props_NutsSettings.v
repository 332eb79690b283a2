(** C132: the settings file of a NumPyro run is what NUTS and MCMC are given, and as many chains run as it asks for. *)
From Coq Require Import String List ZArith Bool Lia Arith Reals.
From Verif Require Import Model_X Model_Settings Model_NutsSettings Spec_NutsSettings Proofs_NutsSettings.
Import ListNotations.
Open Scope string_scope.

Section Settings.
(** the keyword parameters of NUTS and MCMC, and jax.device_count() *)
Variables nuts_ok mcmc_ok : string -> bool.
Variable n_devices : nat.
Hypothesis some_device : (1 <= n_devices)%nat.
Variable file : json.
Hypothesis loaded : json_object file.

Lemma batch_nonzero given n : batch_of n_devices given n <> 0%Z <-> n <> 0%Z.
Proof. unfold batch_of. destruct (1 <? n_devices)%nat; [lia|]. destruct (is_text given _); lia. Qed.

Theorem C132_accepts :
  (exists c, driver nuts_ok mcmc_ok n_devices file = Some c) <->
  has_section file "kernel" /\ has_section file "mcmc" /\
  (forall key v, in_section file "kernel" key v -> key = "dense_mass" \/ nuts_ok key = true) /\
  (forall l, in_section file "kernel" "dense_mass" (JList l) -> Forall iterable l) /\
  (forall key v, in_section file "mcmc" key v -> key = "chain_method" \/ key = "num_chains" \/ mcmc_ok key = true) /\
  (forall key, In key ["chain_method"; "num_warmup"; "num_samples"] -> exists v, in_section file "mcmc" key v) /\
  (exists v n, given_or file "mcmc" "num_chains" (JInt 1) v /\ a_count v n /\ n <> 0%Z).
Proof.
  split.
  - intros (c & H). destruct (driver_has_sections _ _ _ _ _ H) as [Hk Hm]. split; [exact Hk|]. split; [exact Hm|].
    destruct (has_section_is _ _ loaded Hk) as (k & Sk). destruct (has_section_is _ _ loaded Hm) as (m & Sm).
    rewrite (driver_sections _ _ _ _ _ _ loaded Sk Sm) in H. destruct Sk as (_ & Nk & Ik). destruct Sm as (_ & Nm & Im).
    destruct (call_nuts nuts_ok k) as [a|] eqn:Ea; [|discriminate].
    destruct (call_mcmc mcmc_ok n_devices m) as [[b r]|] eqn:Eb; [|discriminate]. clear H.
    destruct (proj1 (call_nuts_iff nuts_ok k Nk) (ex_intro _ a Ea)) as [A1 A2].
    apply call_mcmc_some in Eb. destruct Eb as (meth & n & bs & Hp & _ & _ & B1 & (w1 & B2) & (w2 & B3)).
    apply plan_some in Hp; [|exact Nm]. destruct Hp as (g & v & Hg & Hv & Hc & -> & Hb & _).
    split; [intros key x Hx; apply (A1 key x), Ik, Hx|]. split; [intros l Hl; apply A2, Ik, Hl|].
    split; [intros key x Hx; apply (B1 key x), Im, Hx|]. split.
    + intros key [<-|[<-|[<-|[]]]]; [exists g|exists w1|exists w2]; apply Im; assumption.
    + exists v, n. split; [|split; [exact Hc|apply batch_nonzero in Hb; exact Hb]].
      destruct Hv as [Hv|[Hv ->]]; [left; apply Im; exact Hv|right]. split; [|reflexivity]. intros w Hw. apply (Hv w), Im, Hw.
  - intros (Hk & Hm & K1 & K2 & M1 & M2 & (v & n & Hv & Hc & Hn)).
    destruct (has_section_is _ _ loaded Hk) as (k & Sk). destruct (has_section_is _ _ loaded Hm) as (m & Sm).
    rewrite (driver_sections _ _ _ _ _ _ loaded Sk Sm). destruct Sk as (_ & Nk & Ik). destruct Sm as (_ & Nm & Im).
    destruct (proj2 (call_nuts_iff nuts_ok k Nk)) as (a & ->).
    { split; [intros key x Hx; apply (K1 key x), Ik, Hx|intros l Hl; apply K2, Ik, Hl]. }
    destruct (M2 "chain_method") as (g & Hg); [cbn; auto|].
    assert (E : exists b r, call_mcmc mcmc_ok n_devices m = Some (b, r)).
    { do 2 eexists. apply call_mcmc_some. do 3 eexists. split.
      { apply plan_some; [exact Nm|]. exists g, v. split; [apply Im; exact Hg|]. split.
        { destruct Hv as [Hv|[Hv ->]]; [left; apply Im; exact Hv|right]. split; [|reflexivity]. intros w Hw. apply (Hv w), Im, Hw. }
        split; [exact Hc|]. split; [reflexivity|]. split; [apply batch_nonzero; exact Hn|reflexivity]. }
      split; [reflexivity|]. split; [reflexivity|]. split; [intros key x Hx; apply (M1 key x), Im, Hx|].
      split; [destruct (M2 "num_warmup") as (w & Hw)|destruct (M2 "num_samples") as (w & Hw)]; cbn; auto; exists w; apply Im; exact Hw. }
    destruct E as (b & r & ->). eauto.
Qed.

Variable c : calls.
Hypothesis accepted : driver nuts_ok mcmc_ok n_devices file = Some c.

Lemma parts : exists k m meth n b,
  section_is file "kernel" k /\ section_is file "mcmc" m /\
  call_nuts nuts_ok k = Some (nuts_args c) /\ plan n_devices m = Some (meth, n, b) /\ runs c = run_list n b /\
  mcmc_args c = ("num_chains", AJson (JInt b)) :: ("chain_method", AJson meth)
    :: map (fun kv => (fst kv, AJson (snd kv))) (without "num_chains" (without "chain_method" m)).
Proof.
  destruct (driver_has_sections _ _ _ _ _ accepted) as [Hk Hm].
  destruct (has_section_is _ _ loaded Hk) as (k & Sk). destruct (has_section_is _ _ loaded Hm) as (m & Sm).
  pose proof accepted as H. rewrite (driver_sections _ _ _ _ _ _ loaded Sk Sm) in H.
  destruct (call_nuts nuts_ok k) as [a|] eqn:Ea; [|discriminate].
  destruct (call_mcmc mcmc_ok n_devices m) as [[b r]|] eqn:Eb; [|discriminate]. injection H as <-.
  apply call_mcmc_some in Eb. destruct Eb as (meth & n & bs & Hp & -> & -> & _).
  exists k, m, meth, n, bs. cbn. auto 8.
Qed.

Lemma in_args (d : dict) key a :
  In (key, a) (map (fun kv : string * json => (fst kv, AJson (snd kv))) d) <-> exists v, In (key, v) d /\ a = AJson v.
Proof.
  rewrite in_map_iff. split.
  - intros ((k' & v) & E & H). cbn in E. injection E as <- <-. eauto.
  - intros (v & H & ->). exists (key, v). auto.
Qed.
Lemma map_args (d : dict) : map fst (map (fun kv : string * json => (fst kv, AJson (snd kv))) d) = map fst d.
Proof. rewrite map_map. reflexivity. Qed.
Lemma not_in_keys k (d : dict) : ~ In k (map fst (without k d)).
Proof. intros H. apply in_map_iff in H. destruct H as ((k' & v) & E & H). cbn in E. subst k'. apply in_without in H. tauto. Qed.

(** Every setting of the section [kernel] but dense_mass reaches NUTS as it is, and NUTS is given nothing else. *)
Theorem C132_kernel :
  NoDup (map fst (nuts_args c)) /\
  forall key a, key <> "dense_mass" ->
    (In (key, a) (nuts_args c) <-> exists v, in_section file "kernel" key v /\ a = AJson v).
Proof.
  destruct parts as (k & m & meth & n & b & (_ & Nk & Ik) & _ & Hn & _). apply call_nuts_some in Hn. destruct Hn as (d & _ & ->).
  split.
  - cbn [map fst]. rewrite map_args. constructor; [apply not_in_keys|apply without_nodup; exact Nk].
  - intros key a Hne. cbn [In]. rewrite in_args. split.
    + intros [H|(v & H & ->)]; [injection H as H _; congruence|]. apply in_without in H. exists v. split; [apply Ik; tauto|reflexivity].
    + intros (v & H & ->). right. exists v. split; [apply in_without; split; [apply Ik; exact H|exact Hne]|reflexivity].
Qed.

(** dense_mass is False when it is not given, a list of lists is given as the list of the same tuples, and anything but a
    list is passed as it is. *)
Theorem C132_dense :
  ((forall v, ~ in_section file "kernel" "dense_mass" v) -> In ("dense_mass", AJson (JBool false)) (nuts_args c)) /\
  (forall groups, in_section file "kernel" "dense_mass" (JList (map JList groups)) ->
     In ("dense_mass", ATuples groups) (nuts_args c)) /\
  (forall v, in_section file "kernel" "dense_mass" v -> (forall l, v <> JList l) -> In ("dense_mass", AJson v) (nuts_args c)).
Proof.
  destruct parts as (k & m & meth & n & b & (_ & Nk & Ik) & _ & Hn & _). apply call_nuts_some in Hn. destruct Hn as (d & Hd & ->).
  split; [|split].
  - intros H. left. destruct (find_key "dense_mass" k) as [v|] eqn:E.
    + exfalso. apply (H v), Ik, find_key_in, E.
    + cbn in Hd. congruence.
  - intros groups H. left. apply Ik in H. apply (find_key_iff _ k _ Nk) in H. rewrite H in Hd. cbn in Hd.
    rewrite tuples_lists in Hd. cbn in Hd. congruence.
  - intros v H Hl. left. apply Ik in H. apply (find_key_iff _ k _ Nk) in H. rewrite H in Hd.
    destruct v; cbn in Hd; try congruence.
Qed.

(** A list of names is not a list of groups: each name is cut into its letters, and each letter is taken as a name. *)
Theorem C132_names_refuted name :
  in_section file "kernel" "dense_mass" (JList [JStr name]) ->
  In ("dense_mass", ATuples [map (fun ch => JStr (String ch "")) (list_ascii_of_string name)]) (nuts_args c).
Proof.
  destruct parts as (k & m & meth & n & b & (_ & Nk & Ik) & _ & Hn & _). apply call_nuts_some in Hn. destruct Hn as (d & Hd & ->).
  intros H. left. apply Ik in H. apply (find_key_iff _ k _ Nk) in H. rewrite H in Hd. cbn in Hd. congruence.
Qed.

(** Every setting of the section [mcmc] but the number of chains and the method reaches MCMC as it is, and nothing else. *)
Theorem C132_mcmc :
  NoDup (map fst (mcmc_args c)) /\
  forall key a, key <> "chain_method" -> key <> "num_chains" ->
    (In (key, a) (mcmc_args c) <-> exists v, in_section file "mcmc" key v /\ a = AJson v).
Proof.
  destruct parts as (k & m & meth & n & b & _ & (_ & Nm & Im) & _ & _ & _ & ->). split.
  - cbn [map fst]. rewrite map_args. constructor.
    + cbn [In]. intros [H|H]; [discriminate|exact (not_in_keys _ _ H)].
    + constructor; [|apply without_nodup, without_nodup; exact Nm]. intros H. apply in_map_iff in H.
      destruct H as ((k' & v) & E & H). cbn in E. subst k'. rewrite !in_without in H. tauto.
  - intros key a H1 H2. cbn [In]. rewrite in_args. split.
    + intros [H|[H|(v & H & ->)]]; try (injection H as H _; congruence). rewrite !in_without in H. exists v.
      split; [apply Im; tauto|reflexivity].
    + intros (v & H & ->). right. right. exists v. split; [|reflexivity]. rewrite !in_without. split; [split; [apply Im; exact H|exact H1]|exact H2].
Qed.

(** As many chains run as the file asks for, in batches of the size MCMC is given; a batch fits on the devices unless
    one device runs them all as one vector. *)
Theorem C132_chains v n : given_or file "mcmc" "num_chains" (JInt 1) v -> a_count v n -> (1 <= n)%Z ->
  exists batch full rest,
    (forall a, In ("num_chains", a) (mcmc_args c) <-> a = AJson (JInt batch)) /\
    runs c = (repeat batch full ++ rest)%list /\ (length rest <= 1)%nat /\
    fold_right Z.add 0%Z (runs c) = n /\ (forall x, In x (runs c) -> (1 <= x <= batch)%Z) /\
    ((n_devices = 1%nat /\ in_section file "mcmc" "chain_method" (JStr "vectorized") /\ batch = n) \/
     (~ (n_devices = 1%nat /\ in_section file "mcmc" "chain_method" (JStr "vectorized")) /\ batch = Z.min n (Z.of_nat n_devices))).
Proof.
  intros Hv Hc Hn. pose proof C132_mcmc as [Nd _].
  destruct parts as (k & m & meth & n' & b & _ & (_ & Nm & Im) & _ & Hp & Hr & Ha).
  apply plan_some in Hp; [|exact Nm]. destruct Hp as (g & v' & Hg & Hv' & Hc' & -> & _ & _).
  assert (v' = v).
  { destruct Hv as [Hv|[Hv ->]].
    - apply Im in Hv. destruct Hv' as [H|[H _]]; [|exfalso; exact (H v Hv)].
      apply (find_key_iff _ m _ Nm) in H. apply (find_key_iff _ m _ Nm) in Hv. congruence.
    - destruct Hv' as [H|[_ H]]; [exfalso; apply (Hv v'), Im, H|exact H]. }
  subst v'. assert (n' = n) by (apply int_value_count in Hc; apply int_value_count in Hc'; congruence). subst n'.
  set (bs := batch_of n_devices g n).
  assert (Hg' : in_section file "mcmc" "chain_method" (JStr "vectorized") <-> g = JStr "vectorized").
  { split; intros H.
    - apply Im in H. apply (find_key_iff _ m _ Nm) in H. apply (find_key_iff _ m _ Nm) in Hg. congruence.
    - apply Im. congruence. }
  assert (Hb : (n_devices = 1%nat /\ g = JStr "vectorized" /\ bs = n) \/
     (~ (n_devices = 1%nat /\ g = JStr "vectorized") /\ bs = Z.min n (Z.of_nat n_devices))).
  { unfold bs, batch_of. destruct (Nat.ltb_spec 1 n_devices) as [Hd|Hd]; [right; split; [lia|reflexivity]|].
    destruct (is_text g "vectorized") eqn:E.
    - apply is_text_iff in E. left. repeat split; [lia|exact E].
    - right. split; [|reflexivity]. intros [_ H]. apply is_text_iff in H. congruence. }
  assert (Hbn : (1 <= bs <= n)%Z) by (destruct Hb as [(_ & _ & ->)|[_ ->]]; lia).
  exists bs, (Z.to_nat (n / bs)), (if (0 <? n - n / bs * bs)%Z then [(n - n / bs * bs)%Z] else []).
  split; [|split; [|split; [|split; [|split]]]].
  - intros a. rewrite Ha. split; [|intros ->; left; reflexivity]. rewrite Ha in Nd. intros [H|H]; [injection H as <-; reflexivity|].
    exfalso. cbn [map fst] in Nd. inversion Nd as [|x l Hx _ E]; subst. apply Hx. apply (in_map fst) in H. exact H.
  - rewrite Hr. reflexivity.
  - destruct (0 <? _)%Z; cbn; lia.
  - rewrite Hr. apply run_list_sum. exact Hbn.
  - intros x Hx. rewrite Hr in Hx. eapply run_list_bounds; [exact Hbn|exact Hx].
  - rewrite Hg'. exact Hb.
Qed.

(** The method: sequential for one chain or one device, unless that device runs a vector; parallel on several devices. *)
Theorem C132_method v n : given_or file "mcmc" "num_chains" (JInt 1) v -> a_count v n -> (1 <= n)%Z ->
  exists method, (forall a, In ("chain_method", a) (mcmc_args c) <-> a = AJson (JStr method)) /\
    (n = 1%Z -> method = "sequential") /\
    ((1 < n)%Z -> (1 < n_devices)%nat -> method = "parallel") /\
    ((1 < n)%Z -> n_devices = 1%nat -> in_section file "mcmc" "chain_method" (JStr "vectorized") -> method = "vectorized") /\
    (n_devices = 1%nat -> ~ in_section file "mcmc" "chain_method" (JStr "vectorized") -> method = "sequential").
Proof.
  intros Hv Hc Hn. pose proof C132_mcmc as [Nd _].
  destruct parts as (k & m & meth & n' & b & _ & (_ & Nm & Im) & _ & Hp & Hr & Ha).
  apply plan_some in Hp; [|exact Nm]. destruct Hp as (g & v' & Hg & Hv' & Hc' & Hb & _ & Hm).
  assert (v' = v).
  { destruct Hv as [Hv|[Hv ->]].
    - apply Im in Hv. destruct Hv' as [H|[H _]]; [|exfalso; exact (H v Hv)].
      apply (find_key_iff _ m _ Nm) in H. apply (find_key_iff _ m _ Nm) in Hv. congruence.
    - destruct Hv' as [H|[_ H]]; [exfalso; apply (Hv v'), Im, H|exact H]. }
  subst v'. assert (n' = n) by (apply int_value_count in Hc; apply int_value_count in Hc'; congruence). subst n'.
  assert (Hg' : in_section file "mcmc" "chain_method" (JStr "vectorized") <-> is_text g "vectorized" = true).
  { rewrite is_text_iff. split; intros H.
    - apply Im in H. apply (find_key_iff _ m _ Nm) in H. apply (find_key_iff _ m _ Nm) in Hg. congruence.
    - apply Im. congruence. }
  assert (Hin : forall a, In ("chain_method", a) (mcmc_args c) <-> a = AJson meth).
  { intros a. rewrite Ha. split; [|intros ->; right; left; reflexivity]. rewrite Ha in Nd.
    intros [H|[H|H]]; [discriminate|injection H as <-; reflexivity|].
    exfalso. cbn [map fst] in Nd. inversion Nd as [|x l _ Nd' E]; subst. inversion Nd' as [|x l Hx _ E]; subst.
    apply Hx. apply (in_map fst) in H. exact H. }
  assert (Hs : exists t, meth = JStr t /\ t = if (b =? 1)%Z then "sequential" else if (1 <? n_devices)%nat then "parallel" else "vectorized").
  { rewrite Hm. destruct (Z.eqb_spec b 1) as [|Hb1]; [eexists; split; reflexivity|].
    destruct (Nat.ltb_spec 1 n_devices) as [|Hd]; [eexists; split; reflexivity|].
    exists "vectorized". split; [|reflexivity]. apply is_text_iff. destruct (is_text g "vectorized") eqn:E; [reflexivity|].
    exfalso. unfold batch_of in Hb. rewrite E in Hb. destruct (Nat.ltb_spec 1 n_devices); lia. }
  destruct Hs as (t & -> & Ht). exists t. split; [exact Hin|]. rewrite Ht. unfold batch_of in Hb.
  split; [|split; [|split]].
  - intros ->. destruct (Z.eqb_spec b 1) as [|H1]; [reflexivity|]. exfalso. apply H1. rewrite Hb.
    destruct (1 <? n_devices)%nat; [lia|]. destruct (is_text g _); lia.
  - intros H1 H2. rewrite (proj2 (Nat.ltb_lt _ _) H2) in *. destruct (Z.eqb_spec b 1); [lia|reflexivity].
  - intros H1 H2 H3. apply Hg' in H3. rewrite H3 in Hb. subst n_devices. cbn in *. destruct (Z.eqb_spec b 1); [lia|reflexivity].
  - intros H2 H3. assert (H4 : is_text g "vectorized" = false) by (destruct (is_text g _); [exfalso; apply H3, Hg'; reflexivity|reflexivity]).
    rewrite H4 in Hb. subst n_devices. cbn in Hb. destruct (Z.eqb_spec b 1); [reflexivity|lia].
Qed.
End Settings.

(** the keyword parameters of numpyro.infer.NUTS and MCMC that the template uses *)
Definition some_nuts_keys : list string :=
  ["step_size"; "inverse_mass_matrix"; "adapt_step_size"; "adapt_mass_matrix"; "target_accept_prob"; "max_tree_depth";
   "find_heuristic_step_size"; "forward_mode_differentiation"; "regularize_mass_matrix"].
Definition some_mcmc_keys : list string := ["num_warmup"; "num_samples"; "thinning"; "progress_bar"; "jit_model_args"].

(** The settings that the template script writes are accepted on any number of devices, and ten chains run. *)
Theorem C132_template nuts_ok mcmc_ok n_devices :
  (1 <= n_devices)%nat -> (forall k, In k some_nuts_keys -> nuts_ok k = true) -> (forall k, In k some_mcmc_keys -> mcmc_ok k = true) ->
  exists c, driver nuts_ok mcmc_ok n_devices numpyro_template = Some c /\
    In ("dense_mass", AJson (JBool false)) (nuts_args c) /\ fold_right Z.add 0%Z (runs c) = 10%Z.
Proof.
  intros Hd Hn Hm.
  assert (L : json_object numpyro_template).
  { eexists. split; [reflexivity|]. split.
    - apply (NoDup_count_occ' string_dec). intros x [<-|[<-|[]]]; reflexivity.
    - intros s d [H|[H|[]]]; injection H as <- <-; apply (NoDup_count_occ' string_dec); intros x Hx; cbn in Hx;
        repeat (destruct Hx as [<-|Hx]; [reflexivity|]); destruct Hx. }
  assert (A : exists c, driver nuts_ok mcmc_ok n_devices numpyro_template = Some c).
  { apply C132_accepts; [exact Hd|exact L|].
    assert (Ik : forall key v, in_section numpyro_template "kernel" key v -> key = "dense_mass" /\ v = JBool false \/ In key some_nuts_keys).
    { intros key v (s & d & E & H1 & H2). injection E as <-. destruct H1 as [H1|[H1|[]]]; [|discriminate]. injection H1 as <-.
      cbn in H2. unfold some_nuts_keys. cbn [In].
      repeat (destruct H2 as [H2|H2]; [injection H2 as <- <-; tauto|]). destruct H2. }
    assert (Im : forall key v, in_section numpyro_template "mcmc" key v -> key = "chain_method" \/ key = "num_chains" \/ In key some_mcmc_keys).
    { intros key v (s & d & E & H1 & H2). injection E as <-. destruct H1 as [H1|[H1|[]]]; [discriminate|]. injection H1 as <-.
      cbn in H2. unfold some_mcmc_keys. cbn [In].
      repeat (destruct H2 as [H2|H2]; [injection H2 as <- <-; tauto|]). destruct H2. }
    split; [do 2 eexists; split; [reflexivity|left; reflexivity]|].
    split; [do 2 eexists; split; [reflexivity|right; left; reflexivity]|].
    split; [intros key v H; destruct (Ik _ _ H) as [[-> _]|H']; auto|].
    split; [intros l H; destruct (Ik _ _ H) as [[_ H']|H']; [discriminate|cbn in H'; repeat (destruct H' as [H'|H']; [discriminate|]); destruct H']|].
    split; [intros key v H; destruct (Im _ _ H) as [->|[->|H']]; auto|]. split.
    - intros key [<-|[<-|[<-|[]]]]; do 3 eexists; (split; [reflexivity|]); (split; [right; left; reflexivity|]); cbn; tauto.
    - exists (JInt 10), 10%Z. split; [|split; [left; reflexivity|discriminate]]. left. do 2 eexists. split; [reflexivity|].
      split; [right; left; reflexivity|]. cbn; tauto. }
  destruct A as (c & A). exists c. split; [exact A|]. split.
  - apply (proj2 (proj2 (C132_dense _ _ _ _ L _ A))); [|discriminate]. do 2 eexists. split; [reflexivity|].
    split; [left; reflexivity|]. cbn; tauto.
  - destruct (C132_chains _ _ _ Hd _ L _ A (JInt 10) 10%Z) as (b & f & r & _ & _ & _ & H & _); [|left; reflexivity|lia|exact H].
    left. do 2 eexists. split; [reflexivity|]. split; [right; left; reflexivity|]. cbn; tauto.
Qed.

(** seven chains on three devices run as 3 + 3 + 1 *)
Example C132_nonvacuous :
  let file := JObj [("mcmc", JObj [("num_warmup", JInt 5); ("chain_method", JStr "sequential"); ("num_chains", JInt 7); ("num_samples", JInt 9)]);
                    ("kernel", JObj [("max_tree_depth", JInt 4); ("dense_mass", JList [JList [JStr "a"; JStr "b"]])])] in
  json_object file /\
  driver (String.eqb "max_tree_depth") (fun k => String.eqb k "num_warmup" || String.eqb k "num_samples") 3 file =
    Some (Calls [("dense_mass", ATuples [[JStr "a"; JStr "b"]]); ("max_tree_depth", AJson (JInt 4))]
            [("num_chains", AJson (JInt 3)); ("chain_method", AJson (JStr "parallel")); ("num_warmup", AJson (JInt 5)); ("num_samples", AJson (JInt 9))]
            [3; 3; 1]%Z).
Proof.
  split; [|reflexivity]. eexists. split; [reflexivity|]. split.
  - apply (NoDup_count_occ' string_dec). intros x [<-|[<-|[]]]; reflexivity.
  - intros s d [H|[H|[]]]; injection H as <- <-; apply (NoDup_count_occ' string_dec); intros x Hx; cbn in Hx;
      repeat (destruct Hx as [<-|Hx]; [reflexivity|]); destruct Hx.
Qed.

Print Assumptions C132_accepts.
Print Assumptions C132_kernel.
Print Assumptions C132_dense.
Print Assumptions C132_names_refuted.
Print Assumptions C132_mcmc.
Print Assumptions C132_chains.
Print Assumptions C132_method.
Print Assumptions C132_template.
