(** Lemmas on the split tree of random keys. *)
From Coq Require Import String List ZArith Arith Bool Lia.
From Verif Require Import Model_X Model_Key Model_Likelihood Model_FlowMC Model_Numpyro Model_MonteCarlo Model_Joint
  Model_Draws Spec_Draws.
Import ListNotations.
Open Scope nat_scope.
Open Scope list_scope.

Lemma ancestor_trans a b c : ancestor a b -> ancestor b c -> ancestor a c.
Proof. intros H1 H2. induction H2; [exact H1|constructor; exact IHancestor]. Qed.
Lemma ancestor_parent a b i : ancestor (Child a i) b -> ancestor a b.
Proof. intros H. eapply ancestor_trans; [|exact H]. constructor. constructor. Qed.
Fixpoint level (k : rng) : nat := match k with Seed _ => 0 | Child k _ => S (level k) end.
Lemma ancestor_level a b : ancestor a b -> level a <= level b.
Proof. induction 1; cbn; lia. Qed.
(** two ancestors of the same key are related *)
Lemma ancestors_chain a b c : ancestor a c -> ancestor b c -> ancestor a b \/ ancestor b a.
Proof.
  intros H1. revert b. induction H1 as [|c i H1 IH]; intros b H2; [now right|].
  inversion H2; subst; [left; constructor; exact H1|]. now apply IH.
Qed.
Lemma independent_sym a b : independent a b -> independent b a.
Proof. unfold independent. tauto. Qed.
Lemma independent_below a b a' b' : independent a b -> ancestor a a' -> ancestor b b' -> independent a' b'.
Proof.
  intros [N1 N2] Ha Hb. split; intros H.
  - destruct (ancestors_chain a b b') as [C|C]; auto. eapply ancestor_trans; eauto.
  - destruct (ancestors_chain a b a') as [C|C]; auto. eapply ancestor_trans; eauto.
Qed.
Lemma same_level_independent a b : level a = level b -> a <> b -> independent a b.
Proof.
  assert (P : forall a b, ancestor a b -> level a = level b -> a = b).
  { intros x y H. inversion H; subst; [reflexivity|]. cbn. intros E. apply ancestor_level in H0. lia. }
  intros E N. split; intros H; apply P in H; auto.
Qed.
Lemma children_independent k i j : i <> j -> independent (Child k i) (Child k j).
Proof. intros N. apply same_level_independent; [reflexivity|]. intros [= E]. now apply N. Qed.
Lemma seeds_independent s t : s <> t -> independent (Seed s) (Seed t).
Proof. intros N. apply same_level_independent; [reflexivity|]. intros [= E]. now apply N. Qed.
Lemma independent_ne a b : independent a b -> a <> b.
Proof. intros [N _] ->. apply N. constructor. Qed.

(** lists *)
Lemma indep_app l1 l2 : all_independent (l1 ++ l2) <->
  all_independent l1 /\ all_independent l2 /\ (forall a b, In a l1 -> In b l2 -> independent a b).
Proof.
  unfold all_independent. induction l1 as [|x l1 IH]; cbn.
  - split; [intros H; split; [constructor|split; [exact H|intros a b []]]|tauto].
  - split.
    + intros H. inversion H as [|? ? F G]; subst. apply IH in G as (A & B & C). rewrite Forall_app in F.
      destruct F as [F1 F2]. split; [constructor; auto|]. split; [exact B|].
      intros a b [->|Ia] Ib; [rewrite Forall_forall in F2; auto|auto].
    + intros (A & B & C). inversion A as [|? ? F G]; subst. constructor.
      * apply Forall_app. split; [exact F|]. apply Forall_forall. intros b Ib. auto.
      * apply IH. split; [exact G|]. split; [exact B|]. intros a b Ia Ib. auto.
Qed.
Lemma indep_cons x l : all_independent (x :: l) <-> Forall (independent x) l /\ all_independent l.
Proof. split; [intros H; inversion H; auto|intros [A B]; constructor; auto]. Qed.
Lemma indep_nil : all_independent [].
Proof. constructor. Qed.
Lemma indep_one k : all_independent [k].
Proof. repeat constructor. Qed.
Lemma from_trans a b l : ancestor a b -> all_from b l -> all_from a l.
Proof. intros H F. unfold all_from in *. rewrite Forall_forall in *. intros x Hx. eapply ancestor_trans; eauto. Qed.
Lemma from_app a l1 l2 : all_from a (l1 ++ l2) <-> all_from a l1 /\ all_from a l2.
Proof. apply Forall_app. Qed.
Lemma indep_perm_head k l1 l2 : all_independent (k :: l1 ++ l2) <-> all_independent (l1 ++ k :: l2).
Proof.
  rewrite indep_cons, !indep_app, indep_cons, Forall_app. split.
  - intros ((A & B) & C & D & E). rewrite Forall_forall in A. split; [exact C|]. split; [now split|].
    intros a b Ia [<-|Ib]; [apply independent_sym; auto|auto].
  - intros (A & (B & C) & D). split.
    { split; [|exact B]. apply Forall_forall. intros a Ia. apply independent_sym. apply D; [auto|now left]. }
    split; [exact A|]. split; [exact C|]. intros a b Ia Ib. apply D; [auto|now right].
Qed.
Lemma indep_nth l i j d : all_independent l -> i < length l -> j < length l -> i <> j -> independent (nth i l d) (nth j l d).
Proof.
  intros H. revert i j. induction H as [|x l F G IH]; intros i j Hi Hj N; cbn in *; [lia|].
  rewrite Forall_forall in F.
  destruct i, j; [lia| | |]; cbn.
  - apply F, nth_In. lia.
  - apply independent_sym, F, nth_In. lia.
  - apply IH; lia.
Qed.
(** continue from a key that was kept back *)
Lemma thread k' k'' l1 l2 : all_independent (k' :: l1) -> all_independent (k'' :: l2) -> all_from k' (k'' :: l2) ->
  all_independent (k'' :: l1 ++ l2).
Proof.
  intros H1 H2 F. apply indep_cons in H1 as [A1 B1]. apply indep_cons in H2 as [A2 B2].
  unfold all_from in F. rewrite Forall_forall in *. rewrite indep_cons, indep_app, Forall_app, !Forall_forall.
  assert (C : forall a b, In a l1 -> In b (k'' :: l2) -> independent b a).
  { intros a b Ia Ib. eapply independent_below; [apply A1, Ia|apply F, Ib|constructor]. }
  split; [split|split; [exact B1|split; [exact B2|]]].
  - intros a Ia. apply C; [assumption|now left].
  - exact A2.
  - intros a b Ia Ib. apply independent_sym. apply C; [assumption|now right].
Qed.
(** families below independent roots *)
Lemma indep_concat (A : Type) (root : A -> rng) (f : A -> list rng) (l : list A) :
  all_independent (map root l) -> (forall a, In a l -> all_independent (f a) /\ all_from (root a) (f a)) ->
  all_independent (concat (map f l)).
Proof.
  induction l as [|a l IH]; cbn; intros H F; [constructor|]. apply indep_cons in H as [H1 H2].
  rewrite indep_app. split; [apply F; auto|]. split; [apply IH; auto|].
  intros x y Ix Iy. apply in_concat in Iy as (m & Im & Iy). apply in_map_iff in Im as (b & <- & Ib).
  rewrite Forall_forall in H1. eapply independent_below; [apply H1, in_map, Ib| |].
  - destruct (F a (or_introl eq_refl)) as [_ G]. unfold all_from in G. rewrite Forall_forall in G. auto.
  - destruct (F b (or_intror Ib)) as [_ G]. unfold all_from in G. rewrite Forall_forall in G. auto.
Qed.
Lemma split_n_length k n : length (split_n k n) = n.
Proof. unfold split_n. now rewrite map_length, seq_length. Qed.
Lemma split_n_independent k n : all_independent (split_n k n) /\ all_from k (split_n k n).
Proof.
  unfold split_n. split.
  - generalize 0 at 1. induction n as [|n IH]; intros s; cbn; [constructor|]. constructor; [|apply IH].
    apply Forall_forall. intros x Ix. apply in_map_iff in Ix as (j & <- & Ij). apply in_seq in Ij.
    apply children_independent. lia.
  - apply Forall_forall. intros x Ix. apply in_map_iff in Ix as (j & <- & Ij). constructor. constructor.
Qed.
Lemma split_n_nth k n i d : i < n -> nth i (split_n k n) d = Child k i.
Proof.
  intros H. unfold split_n. rewrite (nth_indep _ _ (Child k 0)) by now rewrite map_length, seq_length.
  now rewrite map_nth, seq_nth.
Qed.
Lemma split2_pair k : all_independent [Child k 0; Child k 1] /\ all_from k [Child k 0; Child k 1].
Proof.
  split; [|repeat constructor]. apply indep_cons. split; [|repeat constructor].
  constructor; [|constructor]. apply children_independent. lia.
Qed.

(** ** reads of a guru *)
Lemma read_key_some g k g' : read_key g = Some (k, g') ->
  exists r r', g_key g = Some r /\ g_key g' = Some r' /\ g_seed g' = g_seed g /\ all_independent [r'; k] /\ all_from r [r'; k].
Proof.
  unfold read_key. destruct (g_key g) as [r|]; [|discriminate]. cbn. intros [= <- <-]. cbn.
  exists r, (Child r 0). split; [reflexivity|]. split; [reflexivity|]. split; [reflexivity|]. apply split2_pair.
Qed.
Lemma read_keys_some n g ks g' r : g_key g = Some r -> read_keys n g = Some (ks, g') ->
  exists r', g_key g' = Some r' /\ length ks = n /\ all_independent (r' :: ks) /\ all_from r (r' :: ks).
Proof.
  revert g ks r. induction n as [|n IH]; intros g ks r E H; cbn in H.
  - injection H as <- <-. exists r. split; [exact E|]. split; [reflexivity|]. split; [apply indep_one|]. repeat constructor.
  - destruct (read_key g) as [[k g1]|] eqn:Rd; [|discriminate]. apply read_key_some in Rd as (r0 & r1 & E0 & E1 & _ & I & F).
    assert (r0 = r) by congruence. subst r0.
    destruct (read_keys n g1) as [[ks1 g2]|] eqn:Rs; [|discriminate]. injection H as <- <-.
    destruct (IH _ _ _ E1 Rs) as (r' & E' & L & I' & F'). exists r'. split; [exact E'|]. split; [cbn; lia|].
    inversion F as [|? ? F1 F2]; subst. split.
    + apply (thread r1 r' [k] ks1); auto.
    + inversion F2; subst. pose proof (from_trans _ _ _ F1 F') as G. inversion G; subst. repeat constructor; auto.
Qed.
Lemma read_keys_total n g r : g_key g = Some r -> exists ks g', read_keys n g = Some (ks, g').
Proof.
  revert g r. induction n as [|n IH]; intros g r E; cbn; [eauto|]. unfold read_key. rewrite E. cbn.
  destruct (IH (Guru (Some (Child r 0)) (g_seed g)) (Child r 0) eq_refl) as (ks & g' & H). rewrite H. eauto.
Qed.

(** ** strategies *)
Lemma strategy_keys_independent strategy order k : (forall s, In s order -> keeps_apart (strategy s)) ->
  all_independent (strategy_keys strategy order k) /\ all_from k (strategy_keys strategy order k).
Proof.
  intros H.
  enough (exists k', all_independent (k' :: strategy_keys strategy order k) /\ all_from k (k' :: strategy_keys strategy order k))
    as (k' & A & B).
  { apply indep_cons in A as [_ A]. inversion B; auto. }
  revert k H. induction order as [|s order IH]; intros k H; cbn.
  - exists k. split; [apply indep_one|repeat constructor].
  - destruct (strategy s k) as [k1 used] eqn:E. pose proof (H s (or_introl eq_refl) k) as [A B]. rewrite E in A, B. cbn in A, B.
    destruct (IH k1 (fun s' I => H s' (or_intror I))) as (k' & A' & B'). exists k'. split; [now apply (thread k1)|].
    inversion B; subst. pose proof (from_trans _ _ _ H2 B') as G. inversion G; subst.
    constructor; [auto|]. apply Forall_app. split; auto.
Qed.

(** ** NumPyro batches *)
Lemma batch_calls_independent n b k idx : let '(k', idx', cs) := batch_calls n b k idx in
  all_independent (k' :: map (fun c => fst (fst c)) cs) /\ all_from k (k' :: map (fun c => fst (fst c)) cs)
  /\ idx' = idx + n * b /\ map snd cs = map (fun i => idx + i * b) (seq 0 n) /\ map (fun c => snd (fst c)) cs = repeat b n.
Proof.
  revert k idx. induction n as [|n IH]; intros k idx; cbn [batch_calls].
  - cbn. split; [apply indep_one|]. split; [repeat constructor|]. repeat split; lia.
  - unfold batch_call. cbn [split2]. specialize (IH (Child k 0) (idx + b)).
    destruct (batch_calls n b (Child k 0) (idx + b)) as [[k' idx'] cs]. destruct IH as (A & B & C & D & F).
    cbn [map fst snd]. split.
    { change (all_independent (k' :: [Child k 1] ++ map (fun c => fst (fst c)) cs)).
      apply (thread (Child k 0)); auto. apply split2_pair. }
    split.
    { assert (G := from_trans k _ _ (anc_split _ _ 0 (anc_self k)) B). inversion G; subst.
      constructor; auto. constructor; auto. repeat constructor. }
    split; [rewrite C; lia|]. split.
    { cbn [seq map]. f_equal; [lia|]. rewrite D, <- seq_shift, map_map. apply map_ext. intros i. lia. }
    { cbn. now rewrite F. }
Qed.

(** ** link of the calls with the model of the files *)
Lemma run_mcmc_calls mcmc labels nd cm nc key ops : run_mcmc mcmc labels nd cm nc key = Some ops ->
  exists calls, mcmc_calls nd cm nc key = Some calls
  /\ exists written, Forall2 (fun (c : call) w =>
       save_inference_data (mcmc (fst (fst c)) (snd (fst c))) (snd c) labels = Some w) calls written
     /\ ops = concat written.
Proof.
  unfold run_mcmc, mcmc_calls. destruct cm as [cm|]; [|discriminate]. cbv zeta.
  set (cm' := if negb (String.eqb cm "parallel") && (1 <? nd) then "parallel"%string else cm).
  set (n := match nc with Some n => n | None => 1 end).
  set (b := if String.eqb cm' "vectorized" then n else Nat.min n nd).
  destruct (b =? 0); [discriminate|].
  assert (B : forall m k idx k' idx' os, batches mcmc labels m b k idx = Some (k', idx', os) ->
    exists cs, batch_calls m b k idx = (k', idx', cs)
    /\ exists ws, Forall2 (fun (c : call) w =>
         save_inference_data (mcmc (fst (fst c)) (snd (fst c))) (snd c) labels = Some w) cs ws /\ os = concat ws).
  { induction m as [|m IH]; intros k idx k' idx' os; cbn [batches batch_calls].
    - intros [= <- <- <-]. exists []. split; [reflexivity|]. exists []. split; [constructor|reflexivity].
    - unfold run_batch at 1. unfold batch_call. cbn [split2].
      destruct (save_inference_data (mcmc (Child k 1) b) idx labels) as [o|] eqn:S0; [|discriminate].
      destruct (batches mcmc labels m b (Child k 0) (idx + b)) as [[[k1 i1] o1]|] eqn:B1; [|discriminate].
      intros [= <- <- <-]. destruct (IH _ _ _ _ _ B1) as (cs & E & ws & F & C). rewrite E. eexists. split; [reflexivity|].
      exists (o :: ws). split; [constructor; [exact S0|exact F]|]. cbn. now rewrite C. }
  destruct (batches mcmc labels (n / b) b key 0) as [[[k1 i1] o1]|] eqn:B1; [|discriminate].
  destruct (B _ _ _ _ _ _ B1) as (cs & E & ws & F & C). rewrite E.
  destruct (0 <? n - n / b * b).
  - unfold run_batch, batch_call. cbn [split2].
    destruct (save_inference_data (mcmc (Child k1 1) (n - n / b * b)) i1 labels) as [o|] eqn:S0; [|discriminate].
    intros [= <-]. eexists. split; [reflexivity|]. exists (ws ++ [o]). split.
    + apply Forall2_app; [exact F|]. constructor; [exact S0|constructor].
    + rewrite concat_app. cbn. now rewrite C, app_nil_r.
  - intros [= <-]. eexists. split; [reflexivity|]. exists ws. split; [exact F|exact C].
Qed.
Lemma mcmc_calls_independent nd cm nc key calls : mcmc_calls nd cm nc key = Some calls ->
  all_independent (map (fun c => fst (fst c)) calls) /\ all_from key (map (fun c => fst (fst c)) calls)
  /\ list_sum (map (fun c => snd (fst c)) calls) = match nc with Some n => n | None => 1 end.
Proof.
  unfold mcmc_calls. destruct cm as [cm|]; [|discriminate]. cbv zeta.
  set (cm' := if negb (String.eqb cm "parallel") && (1 <? nd) then "parallel"%string else cm).
  set (n := match nc with Some n => n | None => 1 end).
  set (b := if String.eqb cm' "vectorized" then n else Nat.min n nd).
  destruct (b =? 0) eqn:Z; [discriminate|]. apply Nat.eqb_neq in Z.
  pose proof (batch_calls_independent (n / b) b key 0) as B.
  destruct (batch_calls (n / b) b key 0) as [[k1 i1] cs]. destruct B as (I & F & _ & _ & S0).
  assert (Sum : list_sum (map (fun c => snd (fst c)) cs) = n / b * b).
  { rewrite S0. generalize (n / b) as m. clear. intros m. induction m as [|m IH]; [reflexivity|]. cbn [repeat]. change (b + list_sum (repeat b m) = S m * b). rewrite IH. lia. }
  assert (D := Nat.mul_div_le n b Z).
  destruct (0 <? n - n / b * b) eqn:R; intros [= <-].
  - apply Nat.ltb_lt in R. rewrite !map_app. cbn [map snd fst batch_call split2]. unfold batch_call. cbn [split2 snd fst].
    split; [|split].
    + apply indep_perm_head. rewrite app_nil_r.
      assert (T := thread k1 (Child k1 1) (map (fun c => fst (fst c)) cs) []). rewrite app_nil_r in T.
      apply T; [exact I|apply indep_one|repeat constructor].
    + apply from_app. inversion F; subst. split; [assumption|]. constructor; [|constructor]. now constructor.
    + rewrite list_sum_app. etransitivity; [apply (f_equal2 Nat.add Sum eq_refl)|]. cbn. lia.
  - apply Nat.ltb_ge in R. split; [|split].
    + now apply indep_cons in I.
    + now inversion F.
    + etransitivity; [exact Sum|]. lia.
Qed.

(** ** loops of the analytical likelihood *)
Lemma while_loop_keys (w : rng -> list X) cond m s :
  exists ks k', while_loop cond (while_body split2 w) m s = (fold_left mc_step (map w ks) (fst s), k')
  /\ length ks <= m /\ all_independent (k' :: ks) /\ all_from (snd s) (k' :: ks).
Proof.
  revert s. induction m as [|m IH]; intros [v k]; cbn [while_loop].
  - exists [], k. cbn. split; [reflexivity|]. split; [lia|]. split; [apply indep_one|repeat constructor].
  - destruct (cond (v, k)).
    + unfold while_body at 2. cbn [split2 snd fst]. destruct (IH (mc_step v (w (Child k 1)), Child k 0)) as (ks & k' & E & L & I & F).
      cbn [fst snd] in *. exists (Child k 1 :: ks), k'. split; [rewrite E; reflexivity|]. split; [cbn; lia|]. split.
      * apply (thread (Child k 0) k' [Child k 1] ks); auto. apply split2_pair.
      * assert (G := from_trans k _ _ (anc_split _ _ 0 (anc_self k)) F). inversion G; subst. repeat constructor; auto.
    + exists [], k. cbn. split; [reflexivity|]. split; [lia|]. split; [apply indep_one|repeat constructor].
Qed.
Lemma event_loop_keys (w : rng -> list X) eps m k :
  exists ks, fst (event_loop split2 w eps m k) = fold_left mc_step (map w ks) mc_start
  /\ 1 <= length ks <= Nat.max 1 m /\ all_independent ks /\ all_from k ks.
Proof.
  unfold event_loop. unfold while_body at 2. cbn [split2 fst snd].
  destruct (while_loop_keys w (loop_cond eps) (m - 1) (mc_step mc_start (w (Child k 1)), Child k 0)) as (ks & k' & E & L & I & F).
  cbn [fst snd] in *. exists (Child k 1 :: ks). rewrite E. split; [reflexivity|]. split; [cbn [length]; lia|].
  assert (T := thread (Child k 0) k' [Child k 1] ks (proj1 (split2_pair k)) I F). apply indep_cons in T as [_ T]. split; [exact T|].
  assert (G := from_trans k _ _ (anc_split _ _ 0 (anc_self k)) F). inversion G; subst. constructor; [repeat constructor|assumption].
Qed.
