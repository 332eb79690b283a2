(** C130: every random draw of a run has its own key. *)
From Coq Require Import String List ZArith Reals Arith Bool Lia.
From Verif Require Import Model_X Model_Key Model_Likelihood Model_FlowMC Model_Numpyro Model_MonteCarlo Model_Joint Spec_Joint
  Proofs_Joint Model_Errors Model_Population Model_Draws Spec_Draws Proofs_Draws.
Import ListNotations.
Open Scope nat_scope.
Open Scope list_scope.

(** ** the key of an analysis *)
(** which calls of set_rng_key are accepted, and what they set: a key is taken as it is, whatever the seed; a seed
    must be a non-negative integer; with neither there is an error *)
Theorem C130_set_key : forall g key seed,
  (forall k, key = Some (AKey k) -> exists g', set_rng_key g key seed = Some g' /\ g_key g' = Some k)
  /\ (forall z, key = None -> seed = Some (AInt z) -> (0 <= z)%Z ->
        set_rng_key g key seed = Some (Guru (Some (Seed z)) (Some (Some z))))
  /\ (set_rng_key g key seed = None <->
      key = Some ANotKey
      \/ key = None /\ (seed = None \/ seed = Some ANotInt \/ exists z, seed = Some (AInt z) /\ (z < 0)%Z)).
Proof.
  intros g key seed. split; [|split].
  - intros k ->. cbn. eauto.
  - intros z -> -> Hz. cbn. destruct (z <? 0)%Z eqn:E; [apply Z.ltb_lt in E; lia|reflexivity].
  - destruct key as [[k|]|], seed as [[z|]|]; cbn; try (split; [|tauto]; intros; tauto);
      try (split; [discriminate|]; intros [H|[H _]]; discriminate).
    destruct (z <? 0)%Z eqn:E.
    + apply Z.ltb_lt in E. split; [|reflexivity]. intros _. right. split; [reflexivity|]. right. right. eauto.
    + apply Z.ltb_ge in E. split; [discriminate|]. intros [H|[_ [H|[H|(z' & [= <-] & H)]]]]; try discriminate. lia.
Qed.
Print Assumptions C130_set_key.

(** reading the property again and again gives keys no two of which are related, all made from the key that was set *)
Theorem C130_reads : forall g r n, g_key g = Some r ->
  exists ks g', read_keys n g = Some (ks, g') /\ length ks = n /\ all_independent ks /\ all_from r ks /\ ~ In r ks
  (* nor is the key that is kept related to them *)
  /\ exists r', g_key g' = Some r' /\ Forall (independent r') ks.
Proof.
  intros g r n E. destruct (read_keys_total n g r E) as (ks & g' & H). exists ks, g'. split; [exact H|].
  destruct (read_keys_some n g ks g' r E H) as (r' & E' & L & I & F). apply indep_cons in I as [I1 I2].
  inversion F as [|? ? F1 F2]; subst. split; [reflexivity|]. split; [exact I2|]. split; [exact F2|]. split.
  - intros C. rewrite Forall_forall in I1. destruct (I1 r C) as [_ N]. now apply N.
  - exists r'. split; [exact E'|exact I1].
Qed.
Print Assumptions C130_reads.

Lemma sage_keys d g r g' uses : g_key g = Some r ->
  (forall h s h' us, g_key h = Some s -> d h = Some (h', us) ->
     exists s', g_key h' = Some s' /\ all_independent (s' :: map snd us) /\ all_from s (s' :: map snd us)) ->
  sage_run d g = Some (g', uses) ->
  all_independent (map snd uses) /\ all_from r (map snd uses).
Proof.
  intros E D. unfold sage_run. destruct (read_key g) as [[k g1]|] eqn:Rd; [|discriminate].
  apply read_key_some in Rd as (r0 & r1 & E0 & E1 & _ & I & F). assert (r0 = r) by congruence. subst r0.
  destruct (d g1) as [[g2 us]|] eqn:Ed; [|discriminate]. intros [= <- <-]. cbn [map snd].
  destruct (D _ _ _ _ E1 Ed) as (s' & _ & I' & F').
  pose proof (thread r1 s' [k] (map snd us) I I' F') as T. apply indep_cons in T as [_ T]. split; [exact T|].
  inversion F as [|? ? F1 F2]; subst. inversion F2; subst. constructor; [assumption|].
  pose proof (from_trans _ _ _ F1 F') as G. now inversion G.
Qed.
Lemma monk_keys d g r g' uses : g_key g = Some r ->
  (forall h s h' us, g_key h = Some s -> d h = Some (h', us) ->
     exists s', g_key h' = Some s' /\ all_independent (s' :: map snd us) /\ all_from s (s' :: map snd us)) ->
  monk_run d g = Some (g', uses) ->
  all_independent (map snd uses) /\ all_from r (map snd uses).
Proof.
  intros E D. unfold monk_run. intros H.
  assert (H' : sage_run (fun h => match read_key h with None => None | Some (k, h1) =>
      match d h1 with None => None | Some (h2, us) => Some (h2, (Likelihood, k) :: us) end end) g = Some (g', uses)).
  { unfold sage_run. destruct (read_key g) as [[k g1]|]; [|discriminate]. destruct (read_key g1) as [[k2 g2]|]; [|discriminate].
    destruct (d g2) as [[g3 us]|]; [|discriminate]. injection H as <- <-. reflexivity. }
  refine (sage_keys _ g r g' uses E _ H'). clear H H'.
  intros h s h' us Es. destruct (read_key h) as [[k h1]|] eqn:Rd; [|discriminate].
  apply read_key_some in Rd as (r0 & r1 & E0 & E1 & _ & I & F). assert (r0 = s) by congruence. subst r0.
  destruct (d h1) as [[h2 us2]|] eqn:Ed; [|discriminate]. intros [= <- <-]. cbn [map snd].
  destruct (D _ _ _ _ E1 Ed) as (s' & E' & I' & F'). exists s'. split; [exact E'|]. split.
  - exact (thread r1 s' [k] (map snd us2) I I' F').
  - inversion F as [|? ? F1 F2]; subst. inversion F2; subst. pose proof (from_trans _ _ _ F1 F') as G. inversion G; subst.
    repeat constructor; auto.
Qed.
Lemma flowmc_keys strategy ok t p h s h' us : (forall n, keeps_apart (strategy n)) ->
  g_key h = Some s -> flowmc_driver strategy ok t p h = Some (h', us) ->
  exists s', g_key h' = Some s' /\ all_independent (s' :: map snd us) /\ all_from s (s' :: map snd us).
Proof.
  intros St Es. unfold flowmc_driver. destruct ok; [|discriminate]. cbn [negb].
  destruct (read_key h) as [[k1 h1]|] eqn:R1; [|discriminate]. destruct (read_key h1) as [[k2 h2]|] eqn:R2; [|discriminate].
  destruct (read_key h2) as [[k3 h3]|] eqn:R3; [|discriminate].
  destruct (sample_schedule bundle_strategies (bundle_order t p)) as [sch|]; [|discriminate]. intros [= <- <-].
  apply read_key_some in R1 as (a0 & a1 & A0 & A1 & _ & I1 & F1). assert (a0 = s) by congruence. subst a0.
  apply read_key_some in R2 as (b0 & b1 & B0 & B1 & _ & I2 & F2). assert (b0 = a1) by congruence. subst b0.
  apply read_key_some in R3 as (c0 & c1 & C0 & C1 & _ & I3 & F3). assert (c0 = b1) by congruence. subst c0.
  exists c1. split; [exact C1|]. cbn [map snd bundle_keys split2 app]. unfold bundle_keys. cbn [split2 app map snd].
  rewrite map_map. cbn [snd]. rewrite map_id.
  destruct (strategy_keys_independent strategy (executed sch) k3 (fun n _ => St n)) as [IS FS].
  set (ss := strategy_keys strategy (executed sch) k3) in *.
  inversion F3 as [|? ? F3a F3b]; subst. inversion F3b as [|? ? F3c _]; subst.
  inversion F2 as [|? ? F2a F2b]; subst. inversion F2b as [|? ? F2c _]; subst.
  inversion F1 as [|? ? F1a F1b]; subst. inversion F1b as [|? ? F1c _]; subst.
  assert (J3 : all_independent (c1 :: ss)).
  { apply indep_cons. split; [|exact IS]. apply indep_cons in I3 as [N3 _]. inversion N3 as [|? ? N _]; subst.
    unfold all_from in FS. rewrite Forall_forall in *. intros x Hx. eapply independent_below; [exact N|constructor|auto]. }
  assert (G3 : all_from b1 (c1 :: ss)).
  { constructor; [exact F3a|]. eapply from_trans; [exact F3c|exact FS]. }
  assert (J2' : all_independent [b1; Child k2 1]).
  { apply indep_cons. split; [|apply indep_one]. constructor; [|constructor]. apply indep_cons in I2 as [N2 _]. inversion N2; subst.
    eapply independent_below; [eassumption|constructor|repeat constructor]. }
  pose proof (thread b1 c1 [Child k2 1] ss J2' J3 G3) as J2.
  assert (G2 : all_from a1 (c1 :: [Child k2 1] ++ ss)).
  { pose proof (from_trans _ _ _ F2a G3) as G. inversion G; subst. constructor; [assumption|]. cbn. constructor; [|assumption].
    constructor. exact F2c. }
  pose proof (thread a1 c1 [k1] _ I1 J2 G2) as J1. split; [exact J1|].
  pose proof (from_trans _ _ _ F1a G2) as G. inversion G; subst. constructor; [assumption|]. constructor; assumption.
Qed.
Lemma numpyro_keys nd cm nc h s h' us : g_key h = Some s -> numpyro_driver nd cm nc h = Some (h', us) ->
  exists s', g_key h' = Some s' /\ all_independent (s' :: map snd us) /\ all_from s (s' :: map snd us).
Proof.
  intros Es. unfold numpyro_driver. destruct (read_key h) as [[k h1]|] eqn:R1; [|discriminate].
  destruct (mcmc_calls nd cm nc k) as [calls|] eqn:C; [|discriminate]. intros [= <- <-].
  apply read_key_some in R1 as (a0 & a1 & A0 & A1 & _ & I1 & F1). assert (a0 = s) by congruence. subst a0.
  exists a1. split; [exact A1|]. rewrite map_map. cbn [snd]. destruct (mcmc_calls_independent _ _ _ _ _ C) as (I & F & _).
  inversion F1 as [|? ? F1a F1b]; subst. inversion F1b as [|? ? F1c _]; subst. split.
  - apply indep_cons. split; [|exact I]. apply indep_cons in I1 as [N1 _]. inversion N1 as [|? ? N _]; subst.
    unfold all_from in F. rewrite Forall_forall in *. intros x Hx. eapply independent_below; [exact N|constructor|auto].
  - constructor; [exact F1a|]. eapply from_trans; [exact F1c|exact F].
Qed.
Lemma analysis_keys run seed uses : 
  (forall g r g' uses, g_key g = Some r -> run g = Some (g', uses) -> all_independent (map snd uses) /\ all_from r (map snd uses)) ->
  analysis run seed = Some uses ->
  exists z, seed = AInt z /\ (0 <= z)%Z /\ all_independent (map snd uses) /\ all_from (Seed z) (map snd uses).
Proof.
  intros D. unfold analysis. destruct seed as [z|]; [|discriminate]. cbn [set_rng_key].
  destruct (z <? 0)%Z eqn:E; [discriminate|]. apply Z.ltb_ge in E. unfold option_map.
  destruct (run _) as [[g' us]|] eqn:R; [|discriminate]. intros [= <-]. cbn [snd].
  destruct (D (Guru (Some (Seed z)) (Some (Some z))) (Seed z) g' us eq_refl R) as [A B]. exists z. auto.
Qed.

(** ** a whole run *)
(** the four kinds of run: Sage or Monk, with flowMC or NumPyro *)
Inductive a_run (strategy : string -> rng -> rng * list rng) : (guru -> option (guru * record)) -> Prop :=
  | sage_flowmc ok t p : a_run strategy (sage_run (flowmc_driver strategy ok t p))
  | sage_numpyro nd cm nc : a_run strategy (sage_run (numpyro_driver nd cm nc))
  | monk_flowmc ok t p : a_run strategy (monk_run (flowmc_driver strategy ok t p))
  | monk_numpyro nd cm nc : a_run strategy (monk_run (numpyro_driver nd cm nc)).

(** in a run no two keys handed out are related, provided the strategies of the flowMC library do not mix up the keys
    they draw with and the key they return; and runs with different seeds have no related keys at all *)
Theorem C130_run : forall strategy run seed uses, (forall n, keeps_apart (strategy n)) -> a_run strategy run ->
  analysis run seed = Some uses ->
  all_independent (map snd uses)
  /\ forall run' seed' uses', a_run strategy run' -> seed' <> seed -> analysis run' seed' = Some uses' ->
     forall a b, In a (map snd uses) -> In b (map snd uses') -> independent a b.
Proof.
  intros strategy run seed uses St.
  assert (D : forall run, a_run strategy run -> forall g r g' uses, g_key g = Some r -> run g = Some (g', uses) ->
    all_independent (map snd uses) /\ all_from r (map snd uses)).
  { intros r0 [ok t p|nd cm nc|ok t p|nd cm nc] g r g' us Eg Er.
    - eapply sage_keys; eauto. intros. eapply flowmc_keys; eauto.
    - eapply sage_keys; eauto. intros. eapply numpyro_keys; eauto.
    - eapply monk_keys; eauto. intros. eapply flowmc_keys; eauto.
    - eapply monk_keys; eauto. intros. eapply numpyro_keys; eauto. }
  intros Ar H. destruct (analysis_keys _ _ _ (D run Ar) H) as (z & -> & _ & I & F). split; [exact I|].
  intros run' seed' uses' Ar' N H' a b Ia Ib. destruct (analysis_keys _ _ _ (D run' Ar') H') as (z' & -> & _ & I' & F').
  unfold all_from in F, F'. rewrite Forall_forall in F, F'.
  eapply independent_below; [apply (seeds_independent z z')|apply F, Ia|apply F', Ib]. congruence.
Qed.
Print Assumptions C130_run.

(** what gets a key of its own, for each kind of run with flowMC *)
Theorem C130_purposes : forall strategy t p seed uses,
  (analysis (sage_run (flowmc_driver strategy true t p)) seed = Some uses ->
     exists l, map fst uses = [PoissonMean; Positions; Network] ++ l /\ Forall (eq Sampling) l)
  /\ (analysis (monk_run (flowmc_driver strategy true t p)) seed = Some uses ->
     exists l, map fst uses = [PoissonMean; Likelihood; Positions; Network] ++ l /\ Forall (eq Sampling) l).
Proof.
  assert (S1 : forall (l : list rng), map fst (map (fun k => (Sampling, k)) l) = map (fun _ => Sampling) l) by (intros; now rewrite map_map).
  assert (S2 : forall (l : list rng), Forall (eq Sampling) (map (fun _ => Sampling) l)).
  { induction l; cbn; constructor; auto. }
  intros strategy t p [z|] uses; [|split; discriminate]. unfold analysis. cbn [set_rng_key]. destruct (z <? 0)%Z; [split; discriminate|].
  unfold sage_run, monk_run, flowmc_driver. cbn [read_key g_key g_seed split2 negb option_map].
  destruct (sample_schedule bundle_strategies (bundle_order t p)) as [sch|]; [|split; discriminate].
  split; intros [= <-]; cbn [map fst snd app bundle_keys split2]; unfold bundle_keys; cbn [split2 app map fst]; rewrite S1; eauto.
Qed.
Print Assumptions C130_purposes.

(** ** NumPyro: every call of the sampler has its own key, and the files hold what those calls returned *)
Theorem C130_chains : forall mcmc labels n_devices chain_method num_chains key ops,
  run_mcmc mcmc labels n_devices chain_method num_chains key = Some ops ->
  exists calls : list (rng * nat * nat),
  (* the samples written are those of the calls, in order *)
  (exists written, Forall2 (fun c w => save_inference_data (mcmc (fst (fst c)) (snd (fst c))) (snd c) labels = Some w) calls written
     /\ ops = concat written)
  /\ all_independent (map (fun c => fst (fst c)) calls) /\ all_from key (map (fun c => fst (fst c)) calls)
  /\ list_sum (map (fun c => snd (fst c)) calls) = match num_chains with Some n => n | None => 1 end.
Proof.
  intros mcmc labels nd cm nc key ops H. destruct (run_mcmc_calls _ _ _ _ _ _ _ H) as (calls & C & W). exists calls.
  split; [exact W|]. exact (mcmc_calls_independent _ _ _ _ _ C).
Qed.
Print Assumptions C130_chains.

(** ** the analytical likelihood: every batch of Monte-Carlo samples of every event has its own key *)
Theorem C130_likelihood : forall (weights : nat -> rng -> list X) eps n_max_steps n_events key,
  exists ks : list (list rng), length ks = n_events
  /\ (forall i, i < n_events -> 1 <= length (nth i ks []) <= Nat.max 1 n_max_steps
     /\ fst (event_loop split2 (weights i) eps n_max_steps (nth i (split_n key n_events) (Seed 0)))
        = fold_left mc_step (map (weights i) (nth i ks [])) mc_start)
  /\ all_independent (concat ks) /\ all_from key (concat ks).
Proof.
  intros w eps m n key.
  assert (H : exists ks : list (list rng), length ks = n /\ forall i, i < n ->
     fst (event_loop split2 (w i) eps m (Child key i)) = fold_left mc_step (map (w i) (nth i ks [])) mc_start
     /\ 1 <= length (nth i ks []) <= Nat.max 1 m /\ all_independent (nth i ks []) /\ all_from (Child key i) (nth i ks [])).
  { induction n as [|n (ks & L & IH)]; [exists []; split; [reflexivity|intros i Hi; lia]|].
    destruct (event_loop_keys (w n) eps m (Child key n)) as (k & K). exists (ks ++ [k]).
    split; [rewrite app_length; cbn; lia|]. intros i Hi. destruct (Nat.eq_dec i n) as [->|Ne].
    - rewrite app_nth2, L, Nat.sub_diag by lia. exact K.
    - rewrite app_nth1 by lia. apply IH. lia. }
  destruct H as (ks & L & H). exists ks. split; [exact L|].
  assert (E : ks = map (fun i => nth i ks []) (seq 0 n)).
  { apply (nth_ext _ _ [] []); [now rewrite map_length, seq_length|]. intros i Hi. rewrite L in Hi.
    rewrite (nth_indep _ [] (nth 0 ks [])) by (rewrite L; lia). rewrite (nth_indep (map _ _) [] (nth 0 ks [])) by (rewrite map_length, seq_length; lia).
    rewrite (map_nth (fun i => nth i ks [])), seq_nth by lia. cbn [plus]. apply nth_indep. lia. }
  split; [|split].
  - intros i Hi. rewrite split_n_nth by exact Hi. destruct (H i Hi) as (A & B & _). split; [exact B|exact A].
  - rewrite E. apply (indep_concat _ (Child key)).
    + apply split_n_independent.
    + intros i Ii. apply in_seq in Ii. apply H. lia.
  - apply Forall_forall. intros x Hx. apply in_concat in Hx as (l & Il & Ix). apply In_nth with (d := []) in Il as (i & Hi & <-).
    rewrite L in Hi. destruct (H i Hi) as (_ & _ & _ & F). unfold all_from in F. rewrite Forall_forall in F.
    eapply ancestor_parent, F, Ix.
Qed.
Print Assumptions C130_likelihood.

(** ** distributions *)
(** nested joints: the marginals that are not joints themselves, from left to right *)
Fixpoint leaf_draws (d : dist rng) : list (rng -> list X) :=
  match d with Leaf _ _ _ draw => [draw] | Joint ms _ => flat_map leaf_draws ms end.
(** sampling calls each of them once, with a key of its own *)
Theorem C130_joint : forall (d : dist rng) key,
  exists keys, length keys = length (leaf_draws d) /\ all_independent keys /\ all_from key keys
  /\ sample split_n d key = concat (map2 (fun draw k => draw k) (leaf_draws d) keys).
Proof.
  induction d as [s lp su dr|ms s IH] using dist_ind'; intros key.
  - exists [key]. cbn. split; [reflexivity|]. split; [apply indep_one|]. split; [repeat constructor|]. now rewrite app_nil_r.
  - cbn [leaf_draws sample].
    enough (G : forall (ms : list (dist rng)) roots, Forall (fun d => forall key, exists keys, length keys = length (leaf_draws d)
        /\ all_independent keys /\ all_from key keys
        /\ sample split_n d key = concat (map2 (fun draw k => draw k) (leaf_draws d) keys)) ms ->
      length roots = length ms -> all_independent roots ->
      exists keys, length keys = length (flat_map leaf_draws ms) /\ all_independent keys
        /\ (forall k, In k keys -> exists r, In r roots /\ ancestor r k)
        /\ concat (map2 (fun s k => s k) (map (fun m => sample split_n m) ms) roots)
           = concat (map2 (fun draw k => draw k) (flat_map leaf_draws ms) keys)).
    { destruct (G ms (split_n key (length ms)) IH (split_n_length _ _) (proj1 (split_n_independent _ _))) as (keys & L & I & F & E).
      exists keys. split; [exact L|]. split; [exact I|]. split; [|exact E]. apply Forall_forall. intros k Hk.
      destruct (F k Hk) as (r & Hr & A). eapply ancestor_trans; [|exact A].
      pose proof (proj2 (split_n_independent key (length ms))) as P. unfold all_from in P. rewrite Forall_forall in P. auto. }
    clear. induction ms as [|m ms IH]; intros roots H L I; [exists []; cbn; split; [reflexivity|]; split; [constructor|]; split; [intros k []|reflexivity]|].
    destruct roots as [|r roots]; [discriminate|]. inversion H as [|? ? H1 H2]; subst. apply indep_cons in I as [I1 I2].
    destruct (H1 r) as (k1 & L1 & J1 & F1 & E1). destruct (IH roots H2 ltac:(cbn in L; lia) I2) as (k2 & L2 & J2 & F2 & E2).
    exists (k1 ++ k2). unfold all_from in F1. rewrite Forall_forall in F1, I1. split; [cbn; rewrite !app_length; lia|]. split; [|split].
    + apply indep_app. split; [exact J1|]. split; [exact J2|]. intros a b Ia Ib. destruct (F2 b Ib) as (r' & Hr' & A).
      eapply independent_below; [apply I1, Hr'|apply F1, Ia|exact A].
    + intros k Hk. apply in_app_or in Hk as [Hk|Hk]; [exists r; split; [now left|now apply F1]|].
      destruct (F2 k Hk) as (r' & Hr' & A). exists r'. split; [now right|exact A].
    + cbn [map map2 flat_map concat]. rewrite E1, E2. clear -L1. rewrite <- concat_app. f_equal.
      revert k1 L1. induction (leaf_draws m) as [|x l IH]; intros [|k k1] L1; cbn in *; try lia; [reflexivity|]. f_equal. apply IH. lia.
Qed.
Print Assumptions C130_joint.

(** lazy joints: one key per marginal *)
Lemma subkeys_independent n key : length (subkeys split2 n key) = n
  /\ all_independent (subkeys split2 n key) /\ all_from key (subkeys split2 n key).
Proof.
  enough (exists k', length (subkeys split2 n key) = n /\ all_independent (k' :: subkeys split2 n key) /\ all_from key (k' :: subkeys split2 n key))
    as (k' & L & A & B).
  { split; [exact L|]. apply indep_cons in A as [_ A]. inversion B; auto. }
  revert key. induction n as [|n IH]; intros key; cbn [subkeys split2 fst snd].
  - exists key. split; [reflexivity|]. split; [apply indep_one|repeat constructor].
  - destruct (IH (Child key 0)) as (k' & L & A & B). exists k'. split; [cbn; lia|]. split.
    + apply (thread (Child key 0) k' [Child key 1]); auto. apply split2_pair.
    + assert (G := from_trans key _ _ (anc_split _ _ 0 (anc_self key)) B). inversion G; subst. repeat constructor; auto.
Qed.
Theorem C130_lazy : forall (ms : list (@marginal rng)) deps indep order key, respects ms deps indep order ->
  exists keys parts, length keys = length ms /\ all_independent keys /\ all_from key keys
  /\ lazy_sample split_n split2 ms deps order indep key = Some (concat parts)
  /\ forall t i m, nth_error (indep ++ order) t = Some i -> nth_error ms i = Some m ->
     exists k, nth_error keys t = Some k /\ nth i parts [] = sample split_n (conditional_on deps m i parts) k.
Proof.
  intros ms deps indep order key H. destruct (lazy_sample_spec split2 split_n ms deps indep order key H) as (parts & E & _ & P).
  destruct (subkeys_independent (length ms) key) as (L & I & F). exists (subkeys split2 (length ms) key), parts. auto.
Qed.
Print Assumptions C130_lazy.

(** mixtures: every component and the choice between them have their own keys *)
Theorem C130_mixture : forall draws categorical key,
  exists keys k_index, length keys = length draws /\ all_independent (k_index :: keys) /\ all_from key (k_index :: keys)
  /\ component_sample draws (fst (split2 key)) = map2 (fun d k => d k) draws keys
  /\ sample_with_intermediates draws categorical key
     = (nth (Nat.min (categorical k_index) (length draws - 1)) (map2 (fun d k => d k) draws keys) [], categorical k_index).
Proof.
  intros draws categorical key. exists (split_n (Child key 0) (length draws)), (Child key 1).
  destruct (split_n_independent (Child key 0) (length draws)) as [I F]. pose proof (split_n_length (Child key 0) (length draws)) as L.
  split; [exact L|]. split; [|split; [|split]].
  - apply indep_cons. split; [|exact I]. unfold all_from in F. rewrite Forall_forall in *. intros x Hx.
    apply (independent_below (Child key 1) (Child key 0)); [apply children_independent; lia|constructor|auto].
  - constructor; [repeat constructor|]. eapply from_trans; [|exact F]. repeat constructor.
  - reflexivity.
  - unfold sample_with_intermediates, component_sample. cbn [split2].
    assert (E : length (map2 (fun (d : rng -> list X) k => d k) draws (split_n (Child key 0) (length draws))) = length draws).
    { clear I F. revert L. generalize (split_n (Child key 0) (length draws)) as ks.
      induction draws as [|d l IH]; intros [|k ks] L; cbn in *; try lia. f_equal. apply IH. lia. }
    cbv zeta. refine (f_equal2 pair _ eq_refl). refine (f_equal (fun n => nth (Nat.min _ (n - 1)) _ []) _). exact E.
Qed.
Print Assumptions C130_mixture.

(** whatever is derived from unrelated keys is unrelated, so that the statements above can be used for nested
    distributions and for code that is only known by the key it is given *)
Theorem C130_nested : forall a b a' b', independent a b -> ancestor a a' -> ancestor b b' -> independent a' b' /\ a' <> b'.
Proof.
  intros a b a' b' I Ha Hb. pose proof (independent_below _ _ _ _ I Ha Hb) as J. split; [exact J|]. now apply independent_ne.
Qed.
Print Assumptions C130_nested.

(** ** where it fails *)
(** the detected events of a mock catalogue are chosen with a key made from the one with which the mixture chose the
    components of the very same events: the keys are related whatever the key of the realization *)
Theorem C130_choice_refuted : forall key (draws : list (rng -> list X)),
  let (k_sample, k_choice) := population_draw_keys key in
  exists k_index,
    (forall categorical, snd (sample_with_intermediates draws categorical k_sample) = categorical k_index)
    /\ ~ independent k_index k_choice /\ ancestor k_index k_choice
    (* these two are the only keys the generation of a population draws with *)
    /\ forall sample sample' log_selection choice choice' parameters size,
       (forall n, sample k_sample n = sample' k_sample n) -> (forall w n, choice k_choice w n = choice' k_choice w n) ->
       generate_population sample log_selection choice parameters size key
       = generate_population sample' log_selection choice' parameters size key.
Proof.
  intros key draws. cbn [population_draw_keys split2 snd]. exists (Child key 1). split; [reflexivity|].
  cut (~ independent (Child key 1) (Child (Child key 1) 1) /\ ancestor (Child key 1) (Child (Child key 1) 1)).
  { intros [A B]. split; [exact A|]. split; [exact B|]. intros sa sa' ls ch ch' ps size Hs Hc. unfold generate_population.
    cbn [split2 snd]. cbv zeta. rewrite Hs. destruct (sa' key _) as [pop ind].
    destruct (Model_Guru.index_of ps "mass_1_source"%string), (Model_Guru.index_of ps "mass_2_source"%string); try reflexivity. destruct ls; [|reflexivity].
    now rewrite Hc. }
  assert (A : ancestor (Child key 1) (Child (Child key 1) 1)) by repeat constructor. split; [|exact A]. intros [N _]. now apply N.
Qed.
Print Assumptions C130_choice_refuted.

(** with two or more realizations the errors of the second one are drawn with the keys that generate the populations,
    and those of the first one with the key of the number of events *)
Theorem C130_catalogue_refuted : forall n key, 2 <= n ->
  nth 0 (error_keys n key) (Seed 0) = poisson_key key
  /\ forall r, r < n -> ancestor (nth 1 (error_keys n key) (Seed 0)) (nth r (population_keys n key) (Seed 0)).
Proof.
  intros n key Hn. unfold error_keys, population_keys, poisson_key. rewrite !split_n_nth by lia. split; [reflexivity|].
  intros r Hr. rewrite split_n_nth by exact Hr. cbn [split2 snd]. repeat constructor.
Qed.
Print Assumptions C130_catalogue_refuted.

(** the values that replace rejected ones are drawn with keys made from the key of the first draw *)
Lemma redraw_related rounds : forall key k, In k (redraw_keys rounds key) -> ancestor key k /\ key <> k.
Proof.
  induction rounds as [|r IH]; cbn; [tauto|]. intros key k [<-|H].
  - split; [repeat constructor|]. intros E. apply (f_equal level) in E. cbn in E. lia.
  - destruct (IH _ _ H) as [A N]. split; [eapply ancestor_parent, A|]. intros <-. apply ancestor_level in A. cbn in A. lia.
Qed.
Theorem C130_redraw_refuted : forall rounds key, 1 <= rounds ->
  ~ all_independent (truncated_keys rounds key)
  /\ NoDup (truncated_keys rounds key)
  /\ forall (sample : rng -> nat -> list X) lo hi err fuel, (* these are the keys of the redrawing loop *)
     resample sample lo hi (S fuel) key err
     = if existsb (out_of_range lo hi) err
       then resample sample lo hi fuel (nth 1 (truncated_keys rounds key) key)
              (replace_invalid lo hi err (sample (nth 1 (truncated_keys rounds key) key) (count_invalid lo hi err)))
       else Some err.
Proof.
  intros [|r] key H; [lia|]. split; [|split].
  - intros I. apply indep_cons in I as [I _]. inversion I as [|? ? [N _] _]; subst. apply N. repeat constructor.
  - clear H. unfold truncated_keys. generalize (S r) as m. intros m. revert key. induction m as [|m IH]; intros key.
    + repeat constructor. tauto.
    + cbn [redraw_keys split2 fst]. constructor; [|apply IH]. intros [E|C].
      * apply (f_equal level) in E. cbn in E. lia.
      * apply redraw_related in C as [A _]. apply ancestor_level in A. cbn in A. lia.
  - reflexivity.
Qed.
Print Assumptions C130_redraw_refuted.

(** a strategy that splits its key and draws with the second half, two training and one production loop *)
Definition splitting (n : string) (k : rng) : rng * list rng :=
  if str_in n ["local_stepper"; "global_stepper"; "model_trainer"]%string then (Child k 0, [Child k 1]) else (k, []).
Example C130_nonvacuous :
  (forall n, keeps_apart (splitting n))
  /\ (exists uses, analysis (sage_run (flowmc_driver splitting true 2 1)) (AInt 42) = Some uses /\ length uses = 11)
  /\ (exists uses, analysis (monk_run (numpyro_driver 3 (Some "parallel"%string) (Some 7))) (AInt 42) = Some uses /\ length uses = 5)
  /\ analysis (sage_run (flowmc_driver splitting true 2 1)) (AInt (-1)) = None
  (* a driver that handed the same key twice would be noticed *)
  /\ ~ all_independent [Child (Seed 1) 1; Child (Seed 1) 1]
  /\ ~ all_independent [Seed 1; Child (Seed 1) 1].
Proof.
  split.
  { intros n k. unfold splitting. destruct (str_in n _); cbn [fst snd].
    - apply split2_pair.
    - split; [apply indep_one|repeat constructor]. }
  split; [eexists; split; vm_compute; reflexivity|]. split; [eexists; split; vm_compute; reflexivity|]. split; [reflexivity|].
  split; intros I; apply indep_cons in I as [I _]; inversion I as [|? ? [N _] _]; subst; apply N; repeat constructor.
Qed.
