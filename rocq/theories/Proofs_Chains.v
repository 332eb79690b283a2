(** Lemmas about the files of the flowMC driver. *)
From Coq Require Import Decimal DecimalString DecimalNat DecimalFacts.
From Coq Require Import String Ascii List Arith Bool ZArith Reals Lia.
From Verif Require Import Model_X Model_Key Model_FlowMC Proofs_FlowMC Model_Numpyro Proofs_Numpyro Model_Chains Spec_Chains.
Import ListNotations.
Open Scope nat_scope.

(** ** decimal numerals of a fixed width *)
Fixpoint digits_value (d : uint) : nat :=
  match d with
  | Nil => 0
  | D0 e => digits_value e
  | D1 e => 10 ^ nb_digits e + digits_value e
  | D2 e => 2 * 10 ^ nb_digits e + digits_value e
  | D3 e => 3 * 10 ^ nb_digits e + digits_value e
  | D4 e => 4 * 10 ^ nb_digits e + digits_value e
  | D5 e => 5 * 10 ^ nb_digits e + digits_value e
  | D6 e => 6 * 10 ^ nb_digits e + digits_value e
  | D7 e => 7 * 10 ^ nb_digits e + digits_value e
  | D8 e => 8 * 10 ^ nb_digits e + digits_value e
  | D9 e => 9 * 10 ^ nb_digits e + digits_value e
  end.
Lemma of_uint_acc_value d : forall acc, Nat.of_uint_acc d acc = acc * 10 ^ nb_digits d + digits_value d.
Proof.
  induction d; intros acc; cbn [Nat.of_uint_acc digits_value nb_digits]; rewrite ?IHd, ?Nat.tail_mul_spec; cbn [Nat.pow];
    [cbn; lia|..]; nia.
Qed.
Lemma of_uint_value d : Nat.of_uint d = digits_value d.
Proof. unfold Nat.of_uint. now rewrite of_uint_acc_value. Qed.
Lemma digits_value_bound d : digits_value d < 10 ^ nb_digits d.
Proof. induction d; cbn [digits_value nb_digits Nat.pow]; [cbn; lia|..]; lia. Qed.
Lemma string_length d : String.length (NilEmpty.string_of_uint d) = nb_digits d.
Proof. induction d; cbn; auto. Qed.
Lemma zeros_digits k d : (zeros k ++ NilEmpty.string_of_uint d)%string = NilEmpty.string_of_uint (Nat.iter k D0 d).
Proof. induction k; cbn; auto. now rewrite IHk. Qed.
Lemma iter_D0_value k d : digits_value (Nat.iter k D0 d) = digits_value d.
Proof. induction k; cbn; auto. Qed.
Lemma compare_digits d : forall e, nb_digits d = nb_digits e -> digits_value d < digits_value e ->
  forall s s', String.compare (NilEmpty.string_of_uint d ++ s) (NilEmpty.string_of_uint e ++ s') = Lt.
Proof.
  induction d; intros e L V s s'; destruct e; cbn [nb_digits] in L; try discriminate; try (exfalso; cbn in V; lia); injection L as L;
    cbn [digits_value] in V; pose proof (digits_value_bound d) as Bd; pose proof (digits_value_bound e) as Be;
    try rewrite L in *; cbn [NilEmpty.string_of_uint append String.compare];
    first [ change (Ascii.compare _ _) with Eq; cbn match; apply IHd; [reflexivity || assumption | lia]
          | change (Ascii.compare _ _) with Lt; reflexivity
          | exfalso; lia ].
Qed.
Lemma read_digits_value d : forall acc s, read_digits acc (NilEmpty.string_of_uint d ++ s)
  = read_digits (acc * 10 ^ nb_digits d + digits_value d) s.
Proof.
  induction d; intros acc s; [cbn; f_equal; lia|..]; cbn [NilEmpty.string_of_uint append read_digits];
    match goal with |- context [nat_of_ascii ?c] => let v := eval compute in (nat_of_ascii c) in change (nat_of_ascii c) with v end;
    cbn [Nat.leb andb Nat.sub]; rewrite IHd; cbn [nb_digits digits_value Nat.pow]; f_equal; lia.
Qed.
Lemma to_uint_normal n : unorm (Nat.to_uint n) = Nat.to_uint n.
Proof. now rewrite <- Unsigned.to_of, Unsigned.of_to. Qed.
Lemma normal_lower d : unorm d = d -> d <> Decimal.zero -> 10 ^ (nb_digits d - 1) <= digits_value d.
Proof.
  intros N Z. destruct d; cbn [nb_digits digits_value Nat.sub]; rewrite ?Nat.sub_0_r; try lia.
  - now contradiction Z.
  - exfalso. rewrite unorm_D0 in N. destruct d as [|d|d|d|d|d|d|d|d|d|d]; try (cbn in N; discriminate); try (now apply Z).
    assert (d <> Nil -> False).
    { intros H. pose proof (nb_digits_unorm (D0 d)) as B. rewrite N in B. cbn [nb_digits] in B. assert (D0 d <> Nil) by discriminate.
      specialize (B H0). lia. }
    destruct d; try (apply H; discriminate).
Qed.
Lemma digits_mono i j : i <= j -> nb_digits (Nat.to_uint i) <= nb_digits (Nat.to_uint j).
Proof.
  intros H. destruct (le_lt_dec (nb_digits (Nat.to_uint i)) (nb_digits (Nat.to_uint j))) as [|L]; auto. exfalso.
  assert (Zi : Nat.to_uint i <> Decimal.zero).
  { intros E. rewrite E in L. cbn in L. assert (nb_digits (Nat.to_uint j) = 0) by lia. apply nb_digits_0 in H0.
    apply (unorm_nonnil (Nat.to_uint j)). now rewrite to_uint_normal. }
  pose proof (normal_lower _ (to_uint_normal i) Zi) as Lo. pose proof (digits_value_bound (Nat.to_uint j)) as Hi.
  rewrite <- of_uint_value, Unsigned.of_to in Lo, Hi.
  assert (10 ^ nb_digits (Nat.to_uint j) <= 10 ^ (nb_digits (Nat.to_uint i) - 1)) by (apply Nat.pow_le_mono_r; lia).
  lia.
Qed.
Definition wide (n i : nat) : uint := Nat.iter (nb_digits (Nat.to_uint (n - 1)) - nb_digits (Nat.to_uint i)) D0 (Nat.to_uint i).
Lemma tag_digits n i : tag n i = NilEmpty.string_of_uint (wide n i).
Proof. unfold tag, zfill, decimal, wide. rewrite !string_length. apply zeros_digits. Qed.
Lemma wide_value n i : digits_value (wide n i) = i.
Proof. unfold wide. now rewrite iter_D0_value, <- of_uint_value, Unsigned.of_to. Qed.
Lemma wide_digits n i : i < n -> nb_digits (wide n i) = nb_digits (Nat.to_uint (n - 1)).
Proof.
  intros H. unfold wide. rewrite nb_digits_iter_D0.
  assert (nb_digits (Nat.to_uint i) <= nb_digits (Nat.to_uint (n - 1))) by (apply digits_mono; lia). lia.
Qed.
Lemma tag_inj n i j : tag n i = tag n j -> i = j.
Proof.
  rewrite !tag_digits. intros E. apply (f_equal NilEmpty.uint_of_string) in E. rewrite !NilEmpty.usu in E.
  injection E as E. apply (f_equal digits_value) in E. now rewrite !wide_value in E.
Qed.
Lemma tag_length n i : i < n -> String.length (tag n i) = String.length (tag n 0).
Proof. intros H. rewrite !tag_digits, !string_length, !wide_digits by lia. reflexivity. Qed.
Lemma tag_compare n i j s : i < j -> j < n -> String.compare (tag n i ++ s) (tag n j ++ s) = Lt.
Proof.
  intros H H'. rewrite !tag_digits. apply compare_digits.
  - rewrite !wide_digits by lia. reflexivity.
  - now rewrite !wide_value.
Qed.
Lemma compare_prefix a s t : String.compare (a ++ s) (a ++ t) = String.compare s t.
Proof. induction a as [|c a IH]; cbn; auto. unfold Ascii.compare. now rewrite N.compare_refl. Qed.
Lemma append_inj_l a s t : (a ++ s = a ++ t -> s = t)%string.
Proof. induction a; cbn; auto. intros E. injection E. auto. Qed.

(** ** writing *)
Lemma put_all_app d a b : put_all d (a ++ b) = put_all (put_all d a) b.
Proof. unfold put_all. apply fold_left_app. Qed.
Lemma put_all_miss ws : forall d q, ~ In q (map fst ws) -> put_all d ws q = d q.
Proof.
  induction ws as [|w ws IH]; intros d q H; auto. cbn in H. cbn. unfold put_all in IH. rewrite IH by tauto.
  unfold put. destruct (String.eqb_spec q (fst w)); auto. subst. tauto.
Qed.
Lemma put_all_hit ws q t : In (q, t) ws -> (forall t', In (q, t') ws -> t' = t) -> forall d, put_all d ws q = Some t.
Proof.
  induction ws as [|[q' t'] ws IH] using rev_ind; intros H U d; [easy|].
  rewrite put_all_app. cbn. unfold put. cbn [fst snd]. destruct (String.eqb_spec q q') as [->|N].
  - f_equal. apply U. apply in_app_iff. right. now left.
  - apply IH.
    + apply in_app_iff in H. destruct H as [H|[H|[]]]; auto. congruence.
    + intros t0 H0. apply U. apply in_app_iff. now left.
Qed.
(** the last of several rounds of writes to the same paths decides *)
Section Rounds.
Variables (nl ng : nat) (o : outputs) (writes : world -> list write_op).
Let runs := fold_left (fun w n => run_world nl ng o n w).
Lemma run_saving_world names : forall w, fst (run_saving nl ng o writes names w) = runs names w.
Proof.
  induction names as [|n ns IH]; intros w; auto. cbn. rewrite <- IH. destruct (run_saving nl ng o writes ns _). reflexivity.
Qed.
Lemma run_saving_last names : forall w, names <> [] ->
  exists before, snd (run_saving nl ng o writes names w) = before ++ writes (runs names w).
Proof.
  induction names as [|n ns IH]; intros w N; [easy|]. cbn. destruct ns as [|m ns].
  - exists []. cbn. now rewrite app_nil_r.
  - destruct (IH (run_world nl ng o n w)) as [b E]; [easy|].
    exists (writes (run_world nl ng o n w) ++ b). destruct (run_saving nl ng o writes (m :: ns) _) eqn:R.
    cbn [snd]. cbn [snd] in E. rewrite E. now rewrite app_assoc.
Qed.
Lemma run_saving_paths (P : string -> Prop) names : (forall w q t, In (q, t) (writes w) -> P q) ->
  forall w q t, In (q, t) (snd (run_saving nl ng o writes names w)) -> P q.
Proof.
  intros HP. induction names as [|n ns IH]; intros w q t; cbn; [easy|].
  specialize (IH (run_world nl ng o n w) q t). destruct (run_saving nl ng o writes ns _). cbn [snd] in *.
  intros H. apply in_app_or in H. destruct H as [H|H]; eauto.
Qed.
End Rounds.

(** ** the buffers *)
Section Channel.
Variables nl ng nd : nat.
Variable ch : channel.
Definition block (k c : nat) : list row :=
  (if by_local ch then local_rows_of ch k c else fresh nd nl) ++ (if by_global ch then global_rows_of ch k c else fresh nd ng).
Definition blocks (first n c : nat) : list row := concat (map (fun k => block k c) (seq first n)).
Hypothesis Hl : by_local ch = true -> forall k c, length (local_rows_of ch k c) = nl.
Hypothesis Hg : by_global ch = true -> forall k c, length (global_rows_of ch k c) = ng.
Let runs := fold_left (fun s n => run_channel nl ng ch n s).
Lemma block_length k c : length (block k c) = nl + ng.
Proof.
  unfold block. rewrite app_length. f_equal; [destruct (by_local ch)|destruct (by_global ch)]; auto; apply fresh_length.
Qed.
Lemma blocks_S f n c : blocks f (S n) c = blocks f n c ++ block (f + n) c.
Proof. unfold blocks. rewrite seq_S, map_app, concat_app. cbn. now rewrite app_nil_r. Qed.
Lemma blocks_len f n c : length (blocks f n c) = n * (nl + ng).
Proof. induction n; auto. rewrite blocks_S, app_length, IHn, block_length. lia. Qed.

Definition half1 (b : nat -> list row) (k at_ : nat) : nat -> list row :=
  if by_local ch then fun c => update_slice (b c) at_ (local_rows_of ch k c) else b.
Definition half2 (b : nat -> list row) (k at_ : nat) : nat -> list row :=
  if by_global ch then fun c => update_slice (b c) at_ (global_rows_of ch k c) else b.
Definition one_loop (b : nat -> list row) (kl kg at_ : nat) : nat -> list row := half2 (half1 b kl at_) kg (at_ + nl).
Notation stepc := (run_channel nl ng ch).
Lemma step_local lc gc lp gp tr tb pb : stepc "local_stepper" (State lc gc lp gp tr tb pb)
  = State (S lc) gc (lp + nl) gp tr (if tr then half1 tb lc lp else tb) (if tr then pb else half1 pb lc lp).
Proof. unfold run_channel, run_strategy, half1, write. destruct ch as [[|] b lo go], tr; reflexivity. Qed.
Lemma step_global lc gc lp gp tr tb pb : stepc "global_stepper" (State lc gc lp gp tr tb pb)
  = State lc (S gc) lp (gp + ng) tr (if tr then half2 tb gc gp else tb) (if tr then pb else half2 pb gc gp).
Proof. unfold run_channel, run_strategy, half2, write. destruct ch as [b [|] lo go], tr; reflexivity. Qed.
Lemma step_update_global lc gc lp gp tr tb pb :
  stepc "update_global_step" (State lc gc lp gp tr tb pb) = State lc gc lp lp tr tb pb.
Proof. reflexivity. Qed.
Lemma step_update_local lc gc lp gp tr tb pb :
  stepc "update_local_step" (State lc gc lp gp tr tb pb) = State lc gc gp gp tr tb pb.
Proof. reflexivity. Qed.
Lemma step_trainer s : stepc "model_trainer" s = s.
Proof. reflexivity. Qed.
Lemma step_model s : stepc "update_model" s = s.
Proof. reflexivity. Qed.
Lemma phase_step phase s : phase = training_phase \/ phase = production_phase ->
  runs phase s
  = let b := one_loop (if training s then train_buffer s else prod_buffer s) (local_calls s) (global_calls s) (local_position s) in
    State (S (local_calls s)) (S (global_calls s)) (local_position s + nl + ng) (local_position s + nl + ng) (training s)
      (if training s then b else train_buffer s) (if training s then prod_buffer s else b).
Proof.
  destruct s as [lc gc lp gp tr tb pb]. unfold one_loop, runs.
  intros [->| ->]; unfold training_phase, production_phase; cbn [fold_left];
    rewrite step_local, step_update_global, ?step_trainer, ?step_model, step_global, step_update_local;
    destruct tr; reflexivity.
Qed.
Lemma one_loop_blocks b f n m : (forall c, b c = blocks f n c ++ fresh nd (S m * (nl + ng))) ->
  forall c, one_loop b (f + n) (f + n) (n * (nl + ng)) c = blocks f (S n) c ++ fresh nd (m * (nl + ng)).
Proof.
  intros H c. rewrite blocks_S. unfold one_loop. pose proof (blocks_len f n c) as BL.
  assert (E1 : half1 b (f + n) (n * (nl + ng)) c
    = (blocks f n c ++ (if by_local ch then local_rows_of ch (f + n) c else fresh nd nl)) ++ fresh nd ng ++ fresh nd (m * (nl + ng))).
  { unfold half1. replace (S m * (nl + ng)) with (nl + (ng + m * (nl + ng))) in H by lia.
    destruct (by_local ch) eqn:Bl.
    - rewrite H, !fresh_split. rewrite <- BL. rewrite update_slice_mid.
      + now rewrite <- app_assoc.
      + now rewrite fresh_length, Hl.
    - rewrite H, !fresh_split. now rewrite <- app_assoc. }
  unfold half2. unfold block. destruct (by_global ch) eqn:Bg.
  - rewrite E1. replace (n * (nl + ng) + nl) with (length (blocks f n c ++ (if by_local ch then local_rows_of ch (f + n) c else fresh nd nl))).
    + rewrite update_slice_mid; [now rewrite <- !app_assoc|]. now rewrite fresh_length, Hg.
    + rewrite app_length, BL. f_equal. destruct (by_local ch); auto. apply fresh_length.
  - rewrite E1. now rewrite <- !app_assoc.
Qed.
Lemma phase_loops phase f m : phase = training_phase \/ phase = production_phase ->
  forall n s, local_calls s = f + n -> global_calls s = f + n -> local_position s = n * (nl + ng) ->
  (forall c, (if training s then train_buffer s else prod_buffer s) c = blocks f n c ++ fresh nd (m * (nl + ng))) ->
  let s' := runs (loops m phase) s in
  local_calls s' = f + n + m /\ global_calls s' = f + n + m /\ training s' = training s
  /\ (forall c, (if training s then train_buffer s' else prod_buffer s') c = blocks f (n + m) c)
  /\ (if training s then prod_buffer s' = prod_buffer s else train_buffer s' = train_buffer s).
Proof.
  intros Hph. induction m as [|m IH]; intros n s Hc Hc' Hp Hb s'.
  - cbn in s'. subst s'. rewrite Hc, Hc', !Nat.add_0_r. split; [|split; [|split; [|split]]]; auto.
    + intros c. rewrite Hb. cbn. now rewrite app_nil_r.
    + now destruct (training s).
  - assert (R : s' = runs (loops m phase) (runs phase s)).
    { unfold s', runs. cbn [loops]. apply fold_left_app. }
    rewrite R. rewrite (phase_step phase s Hph). cbv zeta. rewrite Hc, Hc', Hp.
    set (b := one_loop _ _ _ _). set (s1 := State _ _ _ _ _ _ _).
    assert (T : training s1 = training s) by reflexivity.
    specialize (IH (S n) s1). cbn [local_calls global_calls local_position] in IH.
    destruct IH as (A1 & A2 & A3 & A4 & A5).
    + unfold s1. cbn. lia.
    + unfold s1. cbn. lia.
    + unfold s1. cbn. lia.
    + intros c. rewrite T. transitivity (b c).
      * unfold s1. cbn [train_buffer prod_buffer]. now destruct (training s).
      * unfold b. now apply one_loop_blocks.
    + rewrite T in *. split; [lia|]. split; [lia|]. split; [assumption|]. split.
      * intros c. rewrite A4. f_equal. lia.
      * unfold s1 in A5. cbn [train_buffer prod_buffer] in A5. now destruct (training s).
Qed.
Lemma transition_step s : runs ["reset_steppers"; "update_state"]%string s
  = State (local_calls s) (global_calls s) 0 0 false (train_buffer s) (prod_buffer s).
Proof.
  destruct s. unfold runs. cbn [fold_left]. unfold run_channel, run_strategy. cbn [String.eqb Ascii.eqb Bool.eqb andb orb negb].
  reflexivity.
Qed.
Lemma train_end t p : let s := runs (loops t training_phase) (initial_state nl ng nd t p) in
  local_calls s = t /\ global_calls s = t /\ (forall c, train_buffer s c = blocks 0 t c)
  /\ (forall c, prod_buffer s c = fresh nd ((nl + ng) * p)).
Proof.
  intros s. destruct (phase_loops training_phase 0 t (or_introl eq_refl) 0 (initial_state nl ng nd t p)) as (A & B & C & D & E); auto.
  - intros c. cbn. f_equal. lia.
  - cbn [training initial_state] in *. fold s in A, B, C, D, E. split; [lia|]. split; [lia|]. split.
    + intros c. apply D.
    + intros c. now rewrite E.
Qed.
Lemma prod_end t p : let s := runs (loops p production_phase) (runs ["reset_steppers"; "update_state"]%string
    (runs (loops t training_phase) (initial_state nl ng nd t p))) in
  (forall c, train_buffer s c = blocks 0 t c) /\ (forall c, prod_buffer s c = blocks t p c).
Proof.
  destruct (train_end t p) as (A & B & C & D). rewrite transition_step, A, B. intros s.
  destruct (phase_loops production_phase t p (or_intror eq_refl) 0
    (State t t 0 0 false (train_buffer (runs (loops t training_phase) (initial_state nl ng nd t p)))
      (prod_buffer (runs (loops t training_phase) (initial_state nl ng nd t p))))) as (A' & B' & C' & D' & E');
    cbn [local_calls global_calls local_position training]; try lia.
  - intros c. cbn. rewrite D. f_equal. lia.
  - cbn [training] in *. split.
    + intros c. unfold s. rewrite E'. apply C.
    + exact D'.
Qed.
End Channel.

(** ** the four families together *)
Lemma run_world_parts nl ng o names : forall w,
  fold_left (fun w n => run_world nl ng o n w) names w
  = World (fold_left (fun s n => run_channel nl ng (position_rows o) n s) names (positions_ w))
          (fold_left (fun s n => run_channel nl ng (log_prob_rows o) n s) names (log_probs_ w))
          (fold_left (fun s n => run_channel nl ng (local_acc_rows o) n s) names (local_accs_ w))
          (fold_left (fun s n => run_channel nl ng (global_acc_rows o) n s) names (global_accs_ w)).
Proof. induction names as [|n ns IH]; intros w; [now destruct w|]. cbn [fold_left]. rewrite IH. reflexivity. Qed.

(** ** names *)
Inductive which := TrainChain (n : nat) | TrainLog (n : nat) | ProdChain (n : nat) | ProdLog (n : nat) | GlobalAcc | LocalAcc | Samples.
Definition name_of (n_chains : nat) (k : which) : string :=
  match k with
  | TrainChain n => chain_file "train" (tag n_chains n) | TrainLog n => log_prob_file "train" (tag n_chains n)
  | ProdChain n => chain_file "prod" (tag n_chains n) | ProdLog n => log_prob_file "prod" (tag n_chains n)
  | GlobalAcc => accs_file "global" | LocalAcc => accs_file "local" | Samples => samples_file
  end.
Lemma name_inj n_chains a b : name_of n_chains a = name_of n_chains b -> a = b.
Proof.
  assert (T : forall i j, (tag n_chains i ++ ".dat" = tag n_chains j ++ ".dat")%string -> i = j).
  { intros i j E. apply append_inj_r in E. now apply tag_inj in E. }
  destruct a, b; unfold name_of, chain_file, log_prob_file, accs_file, samples_file, directory; cbn [append];
    intros E; try reflexivity; try discriminate; repeat (injection E as E); f_equal; auto.
Qed.
Definition in_phase (n_chains : nat) (training_ : bool) (k : which) : Prop :=
  match k with
  | TrainChain n | TrainLog n => training_ = true /\ n < n_chains
  | ProdChain n | ProdLog n => training_ = false /\ n < n_chains
  | GlobalAcc | LocalAcc => True
  | Samples => training_ = false
  end.
Section Contents.
Variables (nl ng n_chains t p : nat) (labels : list string).
Definition content (w : world) (k : which) : text :=
  match k with
  | TrainChain n => Text ("# " ++ joined labels) (train_buffer (positions_ w) n)
  | TrainLog n => Text "# train" (train_buffer (log_probs_ w) n)
  | ProdChain n => Text ("# " ++ joined labels) (prod_buffer (positions_ w) n)
  | ProdLog n => Text "# prod" (prod_buffer (log_probs_ w) n)
  | GlobalAcc => snd (save_accs "global" n_chains (Some (train_steps nl ng t, train_buffer (global_accs_ w))) (Some (prod_steps nl ng p, prod_buffer (global_accs_ w))))
  | LocalAcc => snd (save_accs "local" n_chains (Some (train_steps nl ng t, train_buffer (local_accs_ w))) (Some (prod_steps nl ng p, prod_buffer (local_accs_ w))))
  | Samples => Text ("# " ++ joined labels) (save_samples nl ng n_chains (prod_steps nl ng p) (positions_ w))
  end.
Definition phase_writes (training_ : bool) : world -> list write_op :=
  if training_ then tuning_writes nl ng labels n_chains t p else sampling_writes nl ng labels n_chains t p.
Lemma writes_iff training_ w q x :
  In (q, x) (phase_writes training_ w)
  <-> exists k, in_phase n_chains training_ k /\ q = name_of n_chains k /\ x = content w k.
Proof.
  assert (C : forall b pos lp, In (q, x) (save_chains labels n_chains b (Some (pos, lp))) <->
    exists n, n < n_chains /\
      ((q = chain_file (if b then "train" else "prod") (tag n_chains n) /\ x = Text ("# " ++ joined labels) (pos n))
       \/ (q = log_prob_file (if b then "train" else "prod") (tag n_chains n) /\ x = Text ("# " ++ (if b then "train" else "prod")) (lp n)))).
  { intros b pos lp. unfold save_chains. rewrite in_concat. split.
    - intros (l & Hl & Hin). apply in_map_iff in Hl. destruct Hl as (n & <- & Hn). apply in_seq in Hn. exists n. split; [lia|].
      destruct Hin as [E|[E|[]]]; injection E as <- <-; auto.
    - intros (n & Hn & H). eexists. split; [apply in_map_iff; exists n; split; [reflexivity|apply in_seq; lia]|].
      cbn. destruct H as [[-> ->]|[-> ->]]; auto. }
  unfold phase_writes. destruct training_; unfold tuning_writes, sampling_writes, acceptances; rewrite !in_app_iff, C; cbn [In];
    (split; [intros H|intros (k & Hk & -> & ->)]).
  - destruct H as [[H|[H|[]]]|(n & Hn & [[-> ->]|[-> ->]])].
    + exists GlobalAcc. injection H as <- <-. repeat split.
    + exists LocalAcc. injection H as <- <-. repeat split.
    + exists (TrainChain n). repeat split; auto.
    + exists (TrainLog n). repeat split; auto.
  - destruct k; cbn [in_phase] in Hk; try (destruct Hk as [Hk Hn]; discriminate Hk); try discriminate Hk.
    + right. exists n. split; [apply Hk|]. left. auto.
    + right. exists n. split; [apply Hk|]. right. auto.
    + left. left. reflexivity.
    + left. right. left. reflexivity.
  - destruct H as [[H|[H|[]]]|[(n & Hn & [[-> ->]|[-> ->]])|[H|[]]]].
    + exists GlobalAcc. injection H as <- <-. repeat split.
    + exists LocalAcc. injection H as <- <-. repeat split.
    + exists (ProdChain n). repeat split; auto.
    + exists (ProdLog n). repeat split; auto.
    + exists Samples. injection H as <- <-. repeat split.
  - destruct k; cbn [in_phase] in Hk; try (destruct Hk as [Hk Hn]; discriminate Hk); try discriminate Hk.
    + right. left. exists n. split; [apply Hk|]. left. auto.
    + right. left. exists n. split; [apply Hk|]. right. auto.
    + left. left. reflexivity.
    + left. right. left. reflexivity.
    + right. right. left. reflexivity.
Qed.
Lemma phase_final o training_ names w d k : names <> [] ->
  put_all d (snd (run_saving nl ng o (phase_writes training_) names w)) (name_of n_chains k)
  = (if (match k with TrainChain n | TrainLog n => training_ && (n <? n_chains) | ProdChain n | ProdLog n => negb training_ && (n <? n_chains)
             | GlobalAcc | LocalAcc => true | Samples => negb training_ end)
     then Some (content (fold_left (fun w n => run_world nl ng o n w) names w) k) else d (name_of n_chains k)).
Proof.
  intros N. set (b := match k with TrainChain _ => _ | _ => _ end).
  assert (Hb : b = true <-> in_phase n_chains training_ k).
  { unfold b. destruct k, training_; cbn [in_phase negb andb]; rewrite ?Nat.ltb_lt; intuition discriminate. }
  destruct b.
  - destruct (run_saving_last nl ng o (phase_writes training_) names w N) as [before E]. rewrite E, put_all_app.
    apply put_all_hit.
    + apply writes_iff. exists k. split; [now apply Hb|]. auto.
    + intros x Hx. apply writes_iff in Hx. destruct Hx as (k' & _ & E' & ->). apply name_inj in E'. now subst.
  - apply put_all_miss. intros Hin. apply in_map_iff in Hin. destruct Hin as ([q x] & Eq & Hin). cbn in Eq. subst q.
    apply (run_saving_paths nl ng o (phase_writes training_) (fun q => exists k, in_phase n_chains training_ k /\ q = name_of n_chains k)) in Hin.
    + destruct Hin as (k' & Hk & E). apply name_inj in E. subst k'. apply Hb in Hk. discriminate.
    + intros w' q y Hy. apply writes_iff in Hy. destruct Hy as (k' & A & B & _). eauto.
Qed.
Lemma phase_other o training_ names w d q : (forall k, in_phase n_chains training_ k -> q <> name_of n_chains k) ->
  put_all d (snd (run_saving nl ng o (phase_writes training_) names w)) q = d q.
Proof.
  intros H. apply put_all_miss. intros Hin. apply in_map_iff in Hin. destruct Hin as ([q' x] & Eq & Hin). cbn in Eq. subst q'.
  apply (run_saving_paths nl ng o (phase_writes training_) (fun q => exists k, in_phase n_chains training_ k /\ q = name_of n_chains k)) in Hin.
  - destruct Hin as (k' & Hk & E). now apply (H k').
  - intros w' q' y Hy. apply writes_iff in Hy. destruct Hy as (k' & A & B & _). eauto.
Qed.
End Contents.

Lemma loops_nonempty n ph : 0 < n -> ph <> [] -> loops n ph <> [].
Proof. destruct n; [lia|]. cbn. intros _ H E. now apply app_eq_nil in E. Qed.
Lemma nth_concat_uniform {A} (f : nat -> list A) m d first n i : (forall k, length (f k) = m) -> i < n * m ->
  nth i (concat (map f (seq first n))) d = nth (i mod m) (f (first + i / m)) d.
Proof.
  intros L. revert first i. induction n as [|n IH]; intros first i H; [lia|]. cbn [seq map concat].
  destruct (Nat.lt_ge_cases i m) as [Hi|Hi].
  - rewrite app_nth1 by now rewrite L. rewrite Nat.mod_small, Nat.div_small by assumption. now rewrite Nat.add_0_r.
  - rewrite app_nth2 by now rewrite L. rewrite L, IH by lia.
    assert (m <> 0) by (intros ->; lia).
    replace i with (i - m + 1 * m) at 3 4 by lia. rewrite Nat.mod_add, Nat.div_add by assumption. f_equal. f_equal. lia.
Qed.

(** the directory at the end of a run *)
Section End_of_run.
Variables (nl ng n_chains t p nd : nat) (labels : list string) (o : outputs).
Hypothesis Ht : 0 < t.
Hypothesis Hp : 0 < p.
Definition runw := fold_left (fun w n => run_world nl ng o n w).
Definition world1 : world := runw (loops t training_phase) (initial_world nl ng nd t p).
Definition world2 : world := runw (loops p production_phase) (runw ["reset_steppers"; "update_state"]%string world1).
Lemma all_writes_end : exists ws, all_writes nl ng labels n_chains t p o nd = Some ws
  /\ (forall d k, put_all d ws (name_of n_chains k)
      = match k with
        | TrainChain n | TrainLog n => if n <? n_chains then Some (content nl ng n_chains t p labels world1 k) else d (name_of n_chains k)
        | ProdChain n | ProdLog n => if n <? n_chains then Some (content nl ng n_chains t p labels world2 k) else d (name_of n_chains k)
        | _ => Some (content nl ng n_chains t p labels world2 k)
        end)
  /\ (forall d q, (forall k, in_phase n_chains true k \/ in_phase n_chains false k -> q <> name_of n_chains k) -> put_all d ws q = d q).
Proof.
  unfold all_writes. rewrite bundle_schedule. cbn [tuning transition sampling]. rewrite !concat_repeat.
  set (r1 := run_saving nl ng o (tuning_writes _ _ _ _ _ _) _ _).
  pose proof (run_saving_world nl ng o (tuning_writes nl ng labels n_chains t p) (loops t training_phase) (initial_world nl ng nd t p)) as W1.
  fold r1 in W1. destruct r1 as [w1 ws1] eqn:R1. cbn [fst] in W1. fold runw in W1. fold world1 in W1. subst w1.
  fold runw. set (r2 := run_saving nl ng o (sampling_writes _ _ _ _ _ _) _ _). destruct r2 as [w2 ws2] eqn:R2.
  exists (ws1 ++ ws2). split; [reflexivity|].
  assert (S1 : ws1 = snd (run_saving nl ng o (phase_writes nl ng n_chains t p labels true) (loops t training_phase) (initial_world nl ng nd t p))).
  { unfold r1 in R1. cbn [phase_writes]. unfold phase_writes. now rewrite R1. }
  assert (S2 : ws2 = snd (run_saving nl ng o (phase_writes nl ng n_chains t p labels false) (loops p production_phase)
             (runw ["reset_steppers"; "update_state"]%string world1))).
  { unfold r2 in R2. unfold phase_writes. now rewrite R2. }
  split.
  - intros d k. rewrite put_all_app, S1, S2, phase_final by (now apply loops_nonempty).
    fold runw. fold world2. rewrite phase_final by (now apply loops_nonempty). fold runw. fold world1.
    destruct k; cbn [negb andb]; try reflexivity; destruct (_ <? _); reflexivity.
  - intros d q H. rewrite put_all_app, S1, S2, phase_other, phase_other; auto.
Qed.
End End_of_run.

(** ** acceptances *)
Lemma xsum_Fin (l : list R) : fold_right xadd (Fin 0) (map Fin l) = Fin (fold_right Rplus 0%R l).
Proof. induction l; cbn; auto. rewrite IHl. reflexivity. Qed.
Lemma xsum_NInf n : 0 < n -> fold_right xadd (Fin 0) (repeat NInf n) = NInf.
Proof. induction n as [|[|n] IH]; intros H; [lia|reflexivity|]. cbn [repeat fold_right] in *. rewrite IH by lia. reflexivity. Qed.
Lemma xdiv_count x n : 0 < n -> xdiv (Fin x) (Fin (INR n)) = Fin (x / INR n) /\ xdiv NInf (Fin (INR n)) = NInf.
Proof.
  intros H. assert (P : (0 < INR n)%R) by now apply lt_0_INR.
  unfold xdiv. destruct (Req_EM_T (INR n) 0) as [E|E]; [exfalso; Lra.lra|]. split; auto.
  destruct (Rlt_dec (INR n) 0); auto. exfalso. Lra.lra.
Qed.
Lemma mean_length n_chains n b : length (mean_over_chains n_chains n b) = n.
Proof. unfold mean_over_chains. now rewrite map_length, seq_length. Qed.
Lemma mean_nth n_chains n b i d : i < n -> nth i (mean_over_chains n_chains n b) d
  = xdiv (fold_right xadd (Fin 0) (map (fun c => scalar (nth i (b c) [])) (seq 0 n_chains))) (Fin (INR n_chains)).
Proof.
  intros H. unfold mean_over_chains.
  rewrite (nth_indep _ d (xdiv (fold_right xadd (Fin 0) (map (fun c => scalar (nth 0 (b c) [])) (seq 0 n_chains))) (Fin (INR n_chains))))
    by now rewrite map_length, seq_length.
  rewrite (map_nth (fun i => xdiv (fold_right xadd (Fin 0) (map (fun c => scalar (nth i (b c) [])) (seq 0 n_chains))) (Fin (INR n_chains)))).
  now rewrite seq_nth.
Qed.
Lemma mean_nth_fin n_chains n b i d (a : nat -> R) : i < n -> 0 < n_chains ->
  (forall c, c < n_chains -> scalar (nth i (b c) []) = Fin (a c)) ->
  nth i (mean_over_chains n_chains n b) d = Fin (fold_right Rplus 0%R (map a (seq 0 n_chains)) / INR n_chains).
Proof.
  intros Hi Hn H. rewrite mean_nth by assumption.
  rewrite (map_ext_in _ (fun c => Fin (a c))) by (intros c Hc; apply in_seq in Hc; apply H; lia).
  rewrite <- (map_map a Fin), xsum_Fin. now apply xdiv_count.
Qed.
Lemma mean_nth_ninf n_chains n b i d : i < n -> 0 < n_chains ->
  (forall c, c < n_chains -> scalar (nth i (b c) []) = NInf) -> nth i (mean_over_chains n_chains n b) d = NInf.
Proof.
  intros Hi Hn H. rewrite mean_nth by assumption.
  rewrite (map_ext_in _ (fun c => NInf)) by (intros c Hc; apply in_seq in Hc; apply H; lia).
  replace (map (fun _ => NInf) (seq 0 n_chains)) with (repeat NInf n_chains).
  - rewrite xsum_NInf by assumption. now apply (xdiv_count 0).
  - clear. generalize 0. induction n_chains; intros k; cbn; auto. now rewrite <- IHn_chains.
Qed.
Lemma pad_length n a : length a <= n -> length (pad n a) = n.
Proof. intros H. unfold pad. rewrite app_length, repeat_length. lia. Qed.
Lemma nth_repeat_any {A} (x d : A) n i : i < n -> nth i (repeat x n) d = x.
Proof. revert i. induction n; intros [|i] H; cbn; auto; try lia. apply IHn. lia. Qed.
Lemma pad_nth n a i d : length a <= n -> i < n -> nth i (pad n a) d = if i <? length a then nth i a d else NaN.
Proof.
  intros H Hi. unfold pad. destruct (Nat.ltb_spec i (length a)).
  - now rewrite app_nth1.
  - rewrite app_nth2 by assumption. apply nth_repeat_any. lia.
Qed.
Lemma save_accs_rows acc n_chains nt bt np bp : 
  let rows := lines (snd (save_accs acc n_chains (Some (nt, bt)) (Some (np, bp)))) in
  length rows = Nat.max nt np
  /\ forall i, i < Nat.max nt np -> nth i rows []
     = [if i <? nt then nth i (mean_over_chains n_chains nt bt) NaN else NaN;
        if i <? np then nth i (mean_over_chains n_chains np bp) NaN else NaN].
Proof.
  unfold save_accs. cbn [snd lines]. rewrite !mean_length. set (m := Nat.max nt np).
  assert (L1 : length (pad m (mean_over_chains n_chains nt bt)) = m) by (apply pad_length; rewrite mean_length; lia).
  assert (L2 : length (pad m (mean_over_chains n_chains np bp)) = m) by (apply pad_length; rewrite mean_length; lia).
  cbv zeta. split.
  - rewrite map_length, combine_length, L1, L2. apply Nat.min_id.
  - intros i Hi.
    rewrite (nth_indep _ [] ((fun tp => [fst tp; snd tp]) (NaN, NaN))) by now rewrite map_length, combine_length, L1, L2, Nat.min_id.
    rewrite (map_nth (fun tp : X * X => [fst tp; snd tp])), combine_nth by congruence. cbn [fst snd].
    rewrite !pad_nth by (rewrite ?mean_length; lia). now rewrite !mean_length.
Qed.
Lemma nth_fresh i n : i < n -> scalar (nth i (fresh 1 n) []) = NInf.
Proof. intros H. unfold fresh. now rewrite nth_repeat_any. Qed.
