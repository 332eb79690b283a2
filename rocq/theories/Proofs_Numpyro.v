From Coq Require Import Decimal DecimalString DecimalNat.
From Coq Require Import String List Arith Bool Reals Lia.
From Verif Require Import Model_Key Model_Numpyro Spec_Numpyro Proofs_Config.
Import ListNotations.
Open Scope nat_scope.

Lemma append_length a b : String.length (a ++ b) = String.length a + String.length b.
Proof. induction a; cbn; auto. Qed.
Lemma append_inj_r a b c : (a ++ c = b ++ c -> a = b)%string.
Proof.
  revert b. induction a as [|x a IH]; intros [|y b] E; cbn in E; auto.
  - exfalso. apply (f_equal String.length) in E. cbn in E. rewrite append_length in E. lia.
  - exfalso. apply (f_equal String.length) in E. cbn in E. rewrite append_length in E. lia.
  - injection E as -> E. now rewrite (IH _ E).
Qed.
Lemma chain_path_inj i j : chain_path i = chain_path j -> i = j.
Proof.
  unfold chain_path. intros E. apply append_inj_l, append_inj_l, append_inj_r in E.
  now apply uint_string_inj.
Qed.
Lemma chain_path_samples i : chain_path i <> samples_path.
Proof. unfold chain_path, samples_path. cbn. intros E. discriminate. Qed.

Lemma lookup_all_spec mcmc labels d value k m : samples_of mcmc labels d value ->
  forall ls, incl ls labels -> lookup_all (mcmc k m) ls = Some (map (fun l => Grouped m d (value k m l)) ls).
Proof.
  intros H ls. induction ls as [|l ls IH]; intros Hi; cbn; auto.
  rewrite (H k m l) by (apply Hi; now left). rewrite IH; auto. intros x Hx. apply Hi. now right.
Qed.
Lemma stack_spec k m d (value : rng -> nat -> string -> nat -> nat -> R) labels : labels <> [] ->
  stack_last (map (fun l => Grouped m d (value k m l)) labels)
  = Some (map (chain_rows labels d (value k m)) (seq 0 m)).
Proof.
  intros Hl. destruct labels as [|l0 ls]; [easy|]. unfold stack_last. cbn [map].
  replace (forallb _ _) with true.
  - cbn [n_draws n_chains]. f_equal. apply map_ext. intros c. unfold chain_rows. apply map_ext. intros t.
    cbn [map at_]. f_equal. rewrite map_map. reflexivity.
  - symmetry. apply forallb_forall. intros g [<-|Hg].
    + unfold same_shape. cbn. now rewrite !Nat.eqb_refl.
    + apply in_map_iff in Hg. destruct Hg as [l [<- _]]. unfold same_shape. cbn. now rewrite !Nat.eqb_refl.
Qed.

Definition chain_writes labels (i : nat) (cs : list (list (list R))) : list op :=
  map (fun ic => Write (chain_path (i + fst ic)) (Table (Some labels) (snd ic))) (enumerate_from 0 cs).
Lemma save_spec mcmc labels d value k m idx : samples_of mcmc labels d value -> labels <> [] -> 0 < m ->
  save_inference_data (mcmc k m) idx labels
  = Some ((if idx =? 0 then Write samples_path (Table (Some labels) (concat (map (chain_rows labels d (value k m)) (seq 0 m))))
           else Append samples_path (concat (map (chain_rows labels d (value k m)) (seq 0 m))))
          :: chain_writes labels idx (map (chain_rows labels d (value k m)) (seq 0 m))).
Proof.
  intros H Hl Hm. unfold save_inference_data. rewrite (lookup_all_spec _ _ _ _ _ _ H labels (incl_refl _)).
  rewrite (stack_spec k m d value labels Hl). destruct m as [|m]; [lia|]. cbn [seq map]. reflexivity.
Qed.

(** state of the directory after saving the chains [cs] *)
Definition good labels (s0 s : files) (ops : list op) (cs : list (list (list R))) : Prop :=
  s = run_ops s0 ops /\
  (forall i, i < length cs -> s (chain_path i) = Some (Table (Some labels) (nth i cs [])) /\ touches (chain_path i) ops = 1) /\
  (cs <> [] -> s samples_path = Some (Table (Some labels) (concat cs))) /\
  (forall p, p <> samples_path -> (forall i, i < length cs -> p <> chain_path i) -> s p = s0 p /\ touches p ops = 0).

Lemma touches_app p a b : touches p (a ++ b) = touches p a + touches p b.
Proof. unfold touches. now rewrite filter_app, app_length. Qed.
Lemma run_ops_app s a b : run_ops s (a ++ b) = run_ops (run_ops s a) b.
Proof. unfold run_ops. apply fold_left_app. Qed.

Lemma enumerate_shift {A} (l : list A) i : enumerate_from (S i) l = map (fun p => (S (fst p), snd p)) (enumerate_from i l).
Proof. revert i. induction l; intros i; cbn; auto. now rewrite IHl. Qed.
Lemma chain_writes_cons labels i c cs :
  chain_writes labels i (c :: cs) = Write (chain_path i) (Table (Some labels) c) :: chain_writes labels (S i) cs.
Proof.
  unfold chain_writes. cbn [enumerate_from map fst snd]. rewrite Nat.add_0_r. f_equal.
  rewrite enumerate_shift, map_map. apply map_ext. intros [j x]. cbn. now rewrite Nat.add_succ_r.
Qed.
Lemma chain_writes_run labels cs : forall i s,
  (forall j, j < length cs -> run_ops s (chain_writes labels i cs) (chain_path (i + j)) = Some (Table (Some labels) (nth j cs []))
     /\ touches (chain_path (i + j)) (chain_writes labels i cs) = 1) /\
  (forall p, (forall j, j < length cs -> p <> chain_path (i + j)) ->
     run_ops s (chain_writes labels i cs) p = s p /\ touches p (chain_writes labels i cs) = 0).
Proof.
  induction cs as [|c cs IH]; intros i s.
  - split; [intros j Hj; cbn in Hj; lia|]. intros p _. now cbn.
  - rewrite chain_writes_cons. unfold run_ops. cbn [fold_left].
    fold (run_ops (exec s (Write (chain_path i) (Table (Some labels) c))) (chain_writes labels (S i) cs)).
    destruct (IH (S i) (exec s (Write (chain_path i) (Table (Some labels) c)))) as [IHa IHb].
    split.
    + intros [|j] Hj.
      * rewrite Nat.add_0_r. destruct (IHb (chain_path i)) as [E1 E2].
        { intros j _ E. apply chain_path_inj in E. lia. }
        rewrite E1. cbn [nth exec]. rewrite String.eqb_refl. split; auto.
        unfold touches in *. cbn [filter path_of]. rewrite String.eqb_refl. cbn [List.length]. now rewrite E2.
      * destruct (IHa j) as [E1 E2]; [cbn in Hj; lia|]. replace (i + S j) with (S i + j) by lia.
        rewrite E1. split; auto. unfold touches in *. cbn [filter path_of].
        destruct (String.eqb_spec (chain_path i) (chain_path (S i + j))) as [E|_]; auto.
        apply chain_path_inj in E. lia.
    + intros p Hp. destruct (IHb p) as [E1 E2].
      { intros j Hj. replace (S i + j) with (i + S j) by lia. apply Hp. cbn. lia. }
      assert (Hpi : p <> chain_path i) by (specialize (Hp 0); rewrite Nat.add_0_r in Hp; apply Hp; cbn; lia).
      rewrite E1. cbn [exec]. destruct (String.eqb_spec p (chain_path i)); [easy|]. split; auto.
      unfold touches in *. cbn [filter path_of]. destruct (String.eqb_spec (chain_path i) p); [congruence|easy].
Qed.

Lemma good_step mcmc labels d value s0 k m ops cs : samples_of mcmc labels d value -> labels <> [] -> 0 < m ->
  good labels s0 (run_ops s0 ops) ops cs -> (cs = [] -> ops = []) ->
  exists ops', save_inference_data (mcmc k m) (length cs) labels = Some ops' /\ ops' <> [] /\
    good labels s0 (run_ops s0 (ops ++ ops')) (ops ++ ops') (cs ++ map (chain_rows labels d (value k m)) (seq 0 m)).
Proof.
  intros H Hl Hm [_ [G1 [G2 G3]]] Hnil. rewrite (save_spec mcmc labels d value k m (length cs) H Hl Hm).
  eexists. split; [reflexivity|]. split; [discriminate|].
  set (new := map (chain_rows labels d (value k m)) (seq 0 m)).
  assert (Hnew : new <> []). { unfold new. destruct m; [lia|]. discriminate. }
  set (first := if length cs =? 0 then _ else _).
  assert (Fp : path_of first = samples_path) by (unfold first; now destruct (length cs =? 0)).
  split; [reflexivity|]. rewrite run_ops_app.
  set (s1 := run_ops s0 ops) in *.
  change (run_ops s1 (first :: chain_writes labels (length cs) new))
    with (run_ops (exec s1 first) (chain_writes labels (length cs) new)).
  destruct (chain_writes_run labels new (length cs) (exec s1 first)) as [Wa Wb].
  assert (Tf : forall p, p <> samples_path -> touches p (ops ++ first :: chain_writes labels (length cs) new)
               = touches p ops + touches p (chain_writes labels (length cs) new)).
  { intros p Hp. rewrite touches_app. f_equal. unfold touches. cbn [filter].
    rewrite Fp. destruct (String.eqb_spec samples_path p); [congruence|auto]. }
  assert (Ef : forall p, p <> samples_path -> exec s1 first p = s1 p).
  { intros p Hp. unfold first. destruct (length cs =? 0); cbn [exec]; destruct (String.eqb_spec p samples_path); congruence. }
  split; [|split].
  - intros i Hi. rewrite app_length in Hi. rewrite Tf by apply chain_path_samples.
    destruct (Nat.lt_ge_cases i (length cs)) as [Hlt|Hge].
    + destruct (Wb (chain_path i)) as [E1 E2].
      { intros j _ E. apply chain_path_inj in E. lia. }
      rewrite E1, E2, Ef by apply chain_path_samples. destruct (G1 i Hlt) as [A B].
      rewrite A, B, app_nth1 by auto. split; auto.
    + destruct (Wa (i - length cs)) as [E1 E2]; [lia|].
      replace (length cs + (i - length cs)) with i in * by lia. rewrite E1, E2, app_nth2 by auto.
      destruct (G3 (chain_path i)) as [_ B]; [apply chain_path_samples|intros j Hj E; apply chain_path_inj in E; lia|].
      rewrite B. split; auto.
  - intros _. destruct (Wb samples_path) as [E1 _].
    { intros j _ E. symmetry in E. now apply chain_path_samples in E. }
    rewrite E1. unfold first. destruct cs as [|c cs'].
    + cbn [length Nat.eqb exec]. rewrite String.eqb_refl. reflexivity.
    + cbn [length Nat.eqb exec]. rewrite String.eqb_refl, G2 by discriminate. cbn [header rows].
      f_equal. f_equal. rewrite concat_app. reflexivity.
  - intros p Hp1 Hp2. rewrite Tf by auto. destruct (Wb p) as [E1 E2].
    { intros j Hj. apply Hp2. rewrite app_length. lia. }
    rewrite E1, E2, Ef by auto. destruct (G3 p Hp1) as [A B].
    { intros i Hi. apply Hp2. rewrite app_length. lia. }
    rewrite A, B. auto.
Qed.

Fixpoint zeros (k : rng) (n : nat) : rng := match n with 0 => k | S n => zeros (Child k 0) n end.
Fixpoint batch_keys (k : rng) (n : nat) : list rng :=
  match n with 0 => [] | S n => Child k 1 :: batch_keys (Child k 0) n end.

Lemma chains_app labels d value a b :
  chains_of_calls labels d value (a ++ b) = chains_of_calls labels d value a ++ chains_of_calls labels d value b.
Proof. unfold chains_of_calls. apply flat_map_app. Qed.

Lemma batches_spec mcmc labels d value s0 bs : samples_of mcmc labels d value -> labels <> [] -> 0 < bs ->
  forall n k cs ops, good labels s0 (run_ops s0 ops) ops cs -> (cs = [] -> ops = []) ->
  exists ops', batches mcmc labels n bs k (length cs) = Some (zeros k n, length cs + n * bs, ops') /\
    let calls := map (fun key => (key, bs)) (batch_keys k n) in
    good labels s0 (run_ops s0 (ops ++ ops')) (ops ++ ops') (cs ++ chains_of_calls labels d value calls)
    /\ (cs ++ chains_of_calls labels d value calls = [] -> ops ++ ops' = []).
Proof.
  intros H Hl Hb. induction n as [|n IH]; intros k cs ops G Gn.
  - exists []. cbn. rewrite !app_nil_r, Nat.add_0_r. split; [reflexivity|]. split; [exact G|exact Gn].
  - destruct (good_step mcmc labels d value s0 (Child k 1) bs ops cs H Hl Hb G Gn) as [o1 [E1 [N1 G1]]].
    set (new := map (chain_rows labels d (value (Child k 1) bs)) (seq 0 bs)) in *.
    assert (Ln : length new = bs) by (unfold new; rewrite map_length, seq_length; auto).
    destruct (IH (Child k 0) (cs ++ new) (ops ++ o1) G1) as [o2 [E2 G2]].
    { intros En. apply (f_equal (@length _)) in En. rewrite app_length, Ln in En. cbn in En. lia. }
    exists (o1 ++ o2). cbn [batches]. unfold run_batch, split2. rewrite E1.
    rewrite app_length, Ln in E2. rewrite E2. cbn [zeros batch_keys map].
    split; [f_equal; f_equal; f_equal; lia|].
    cbn [chains_of_calls flat_map fst snd]. fold new. rewrite !app_assoc. exact G2.
Qed.

Lemma good_init labels s0 : good labels s0 (run_ops s0 []) [] [].
Proof. split; auto. split; [cbn; intros; lia|]. split; [easy|]. now intros. Qed.

Fixpoint depth (k : rng) : nat := match k with Seed _ => 0 | Child k _ => S (depth k) end.
Lemma batch_keys_depth n : forall k x, In x (batch_keys k n) -> depth k < depth x.
Proof.
  induction n as [|n IH]; intros k x; [easy|]. cbn [batch_keys]. intros [<-|H]; [cbn; lia|].
  apply IH in H. cbn in H. lia.
Qed.
Lemma batch_keys_NoDup n : forall k, NoDup (batch_keys k n).
Proof.
  induction n as [|n IH]; intros k; cbn [batch_keys]; constructor; auto.
  intros H. apply batch_keys_depth in H. cbn in H. lia.
Qed.
Lemma batch_keys_length n : forall k, length (batch_keys k n) = n.
Proof. induction n; intros; cbn; auto. Qed.
Lemma batch_keys_S n : forall k, batch_keys k (S n) = batch_keys k n ++ [Child (zeros k n) 1].
Proof.
  induction n as [|n IH]; intros k; auto. cbn [batch_keys zeros app]. f_equal.
  exact (IH (Child k 0)).
Qed.

Lemma calls_count labels d value calls :
  length (chains_of_calls labels d value calls) = list_sum (map snd calls).
Proof.
  induction calls as [|[k m] calls IH]; cbn; auto. rewrite app_length, map_length, seq_length.
  f_equal. exact IH.
Qed.

Lemma run_mcmc_spec mcmc labels d value s0 nd cm nc key n :
  samples_of mcmc labels d value -> labels <> [] -> 0 < nd -> n = match nc with Some n => n | None => 1 end -> 0 < n ->
  exists ops calls, run_mcmc mcmc labels nd (Some cm) nc key = Some ops /\
    NoDup (map fst calls) /\ list_sum (map snd calls) = n /\
    good labels s0 (run_ops s0 ops) ops (chains_of_calls labels d value calls).
Proof.
  intros H Hl Hd Hn Hp. unfold run_mcmc. rewrite <- Hn.
  set (cm' := if negb _ && _ then _ else _).
  set (bs := if String.eqb cm' "vectorized" then n else Nat.min n nd).
  assert (Hb : 0 < bs /\ bs <= n) by (unfold bs; destruct (String.eqb cm' "vectorized"); lia).
  destruct (Nat.eqb_spec bs 0); [lia|].
  destruct (batches_spec mcmc labels d value s0 bs H Hl ltac:(lia) (n / bs) key [] [] (good_init _ _) (fun _ => eq_refl))
    as [ops [E [G Gn]]].
  cbn [length] in E. rewrite E.
  pose proof (Nat.div_mod n bs ltac:(lia)) as Hdm. pose proof (Nat.mod_upper_bound n bs ltac:(lia)) as Hmu.
  set (q := n / bs) in *.
  set (calls := map (fun key => (key, bs)) (batch_keys key q)) in *.
  assert (Sm : forall l, list_sum (map snd (map (fun key : rng => (key, bs)) l)) = length l * bs).
  { induction l; cbn; auto. }
  assert (Fm : forall l, map fst (map (fun key : rng => (key, bs)) l) = l).
  { induction l; cbn; f_equal; auto. }
  destruct (Nat.ltb_spec 0 (n - q * bs)) as [Hr|Hr].
  - cbn [app] in G. destruct (good_step mcmc labels d value s0 (Child (zeros key q) 1) (n - q * bs) ops _ H Hl Hr G Gn) as [o2 [E2 [_ G2]]].
    unfold run_batch, split2. rewrite calls_count in E2. unfold calls in E2. rewrite Sm, batch_keys_length in E2. cbn [Nat.add] in *.
    rewrite E2. exists (ops ++ o2), (calls ++ [(Child (zeros key q) 1, n - q * bs)]). split; auto.
    split; [|split].
    + rewrite map_app. unfold calls. rewrite Fm. cbn [map fst]. rewrite <- batch_keys_S. apply batch_keys_NoDup.
    + rewrite map_app, list_sum_app. unfold calls. rewrite Sm, batch_keys_length. cbn. lia.
    + rewrite chains_app. cbn [chains_of_calls flat_map fst snd]. rewrite app_nil_r. exact G2.
  - exists ops, calls. split; auto. split; [|split].
    + unfold calls. rewrite Fm. apply batch_keys_NoDup.
    + unfold calls. rewrite Sm, batch_keys_length. lia.
    + exact G.
Qed.
