(** C123: the files of a synthetic catalogue. *)
From Coq Require Import ZArith.
From Coq Require Import String Ascii List Arith Bool Reals Lra Lia.
From Verif Require Import Model_X Model_Key Model_Guru Model_NPLMG Model_Population Model_Genie Model_Produce.
From Verif Require Import Spec_Population Spec_Produce Proofs_Config Proofs_NPLMG Proofs_Population Proofs_Genie Proofs_Produce.
From Verif Require Import Props_Population.
Import ListNotations.
Open Scope nat_scope.

Section Catalogue.
Variable sample : rng -> nat -> list row * list nat.
Variable log_selection : option (list row -> list X).
Variable choice : rng -> list X -> nat -> list nat.
Variable poisson : rng -> X -> Z.
Variable exp_rate : X.
Variable ps : list string.
Variables N sz : nat.
Variable tc : option (list (list string)).
Variable registry : list (list string * (list X -> nat -> rng -> list (list X))).
Variable garbage : nat -> nat -> list row.

(** what is drawn has the requested size: one row of one number per parameter, and one label, per event *)
Definition sampler_shape : Prop :=
  (forall k n, length (fst (sample k n)) = n /\ length (snd (sample k n)) = n
     /\ forall r, In r (fst (sample k n)) -> length r = length ps)
  /\ (forall k w n, length (choice k w n) = n).
(** error functions return [sz] rows of one number per parameter of the group; groups name parameters, without overlap *)
Definition error_shape (hs : list (list nat * (list X -> nat -> rng -> list (list X)))) : Prop :=
  heads ps registry = Some hs /\ NoDup (concat (map fst hs))
  /\ (forall names f, In (names, f) registry -> forall v k, length (f v sz k) = sz /\ forall r, In r (f v sz k) -> length r = length names)
  /\ (forall r e, length (garbage r e) = sz /\ forall x, In x (garbage r e) -> length x = length ps).
Definition extra : nat := match log_selection with Some _ => 10000 | None => 0 end.
Notation run := (produce sample log_selection choice poisson exp_rate ps N sz tc registry garbage).

Lemma population_shape size key raw raw_idx pop idx : sampler_shape -> 0 < size ->
  generate_population sample log_selection choice ps size key = Some (raw, raw_idx, pop, idx) ->
  length raw = size + extra /\ raw_idx = snd (sample key (size + extra)) /\ length pop = size /\ length idx = size
  /\ (exists index, pop = map (take [] raw) index /\ idx = map (take 0 raw_idx) index)
  /\ (forall r, In r pop -> In r raw) /\ (forall r, In r raw -> length r = length ps) /\ 0 < length ps.
Proof.
  intros [Hs Hc] Hz. unfold generate_population, extra. destruct (Hs key (match log_selection with Some _ => size + 10000 | None => size end)) as (L1 & L2 & L3).
  replace (size + match log_selection with Some _ => 10000 | None => 0 end)
     with (match log_selection with Some _ => size + 10000 | None => size end) by (destruct log_selection; lia).
  set (n := match log_selection with Some _ => size + 10000 | None => size end) in *.
  destruct (sample key n) as [drawn labels]. cbn [fst snd] in *.
  destruct (index_of ps "mass_1_source") as [i1|] eqn:E1; [|discriminate].
  destruct (index_of ps "mass_2_source") as [i2|] eqn:E2; [|discriminate].
  pose proof (proj1 (index_of_lt _ _ _ E1)) as P.
  assert (W : forall r, In r (map (order_masses i1 i2) drawn) -> length r = length ps).
  { intros r H. apply in_map_iff in H as (r0 & <- & H). unfold order_masses. rewrite !set_cell_length. auto. }
  subst n. destruct log_selection as [f|]; intros H; injection H as <- <- <- <-; rewrite ?map_length; rewrite ?Hc.
  - do 4 (split; [auto|]). split; [eexists; split; reflexivity|]. split; [|split; [exact W|lia]].
    intros r H. apply in_map_iff in H as (i & <- & _). apply nth_In. rewrite map_length. lia.
  - do 4 (split; [auto|]). split; [|split; [auto|split; [exact W|lia]]].
    exists (seq 0 size). split.
    + pose proof (take_all [] (map (order_masses i1 i2) drawn)) as T. now rewrite map_length, L1 in T.
    + pose proof (take_all 0 labels) as T. now rewrite L2 in T.
Qed.

(** A run that ends without an exception draws one number of events, writes every realization with that many
    events, and for each event writes the complete rows of the errors of its values, and their moments;
    events without a complete row have neither.  Nothing else on the disk changes. *)
Theorem C123_catalogue : forall d key d' hs, sampler_shape -> error_shape hs -> run d key = Some d' ->
  exists size, 0 < size /\ poisson (Child key 0) exp_rate = Z.of_nat size
  /\ (forall r, r < N -> exists raw raw_idx pop idx groups,
      d' (path r Injections) = Some (Table ps pop) /\ d' (path r Colours) = Some (Labels idx)
      /\ d' (path r RawInjections) = Some (Table ps raw) /\ d' (path r RawColours) = Some (Labels raw_idx)
      /\ d' (path r MeansCovs) = Some (Groups groups)
      (* the population *)
      /\ length raw = size + extra /\ raw_idx = snd (sample (Child (Child key 1) r) (size + extra))
      /\ length pop = size /\ length idx = size
      /\ (exists index, pop = map (take [] raw) index /\ idx = map (take 0 raw_idx) index)
      /\ (forall x, In x pop -> In x raw) /\ (forall x, In x raw -> length x = length ps)
      (* the events *)
      /\ NoDup (map fst groups) /\ (forall n m, In (n, m) groups -> exists i, i < size /\ n = event_name i)
      /\ (forall i, size <= i -> d' (path r (Posterior i)) = d (path r (Posterior i)))
      /\ forall i, i < size -> exists table,
         length table = sz /\ (forall x, In x table -> length x = length ps)
         /\ (forall g k j, g < length registry -> k < length (fst (nth g registry ([], fun _ _ _ => []))) -> j < sz ->
             let head := fst (nth g hs ([], fun _ _ _ => [])) in
             let f := snd (nth g registry ([], fun _ _ _ => [])) in
             cell (nth k head 0) (nth j table [])
             = nth k (nth j (f (map (fun c => cell c (nth i pop [])) head) sz
                               (Child (Child key r) (i * length registry + g))) []) NaN)
         /\ (filter complete table = [] ->
               d' (path r (Posterior i)) = d (path r (Posterior i)) /\ forall m, ~ In (event_name i, m) groups)
         /\ (filter complete table <> [] ->
               d' (path r (Posterior i)) = Some (Table ps (filter complete table))
               /\ exists m, add_mean_and_covariance (filter complete table) ps tc = Some m /\ In (event_name i, m) groups))
  /\ (forall p, (forall r f, r < N -> p <> path r f) -> d' p = d p).
Proof.
  intros d key d' hs Sh (Hh & Nd & Hr & Hg) H. apply produce_files in H as (size & S0 & Sz & F & Fr).
  exists size. split; [exact S0|]. split; [exact Sz|]. split; [|exact Fr].
  assert (Kn : forall k c, c < N -> nth c (split_n k N) (Seed 0) = Child k c).
  { intros k c Hc. unfold split_n. rewrite (nth_indep _ _ (Child k 0)) by now rewrite map_length, seq_length.
    now rewrite map_nth, seq_nth. }
  intros r Hrn. destruct (F r Hrn) as (raw & ri & pop & idx & G & F1 & F2 & F3 & F4 & data & results & R & A & B & C).
  unfold population_keys in G. rewrite Kn in G by auto. cbn [split2 snd] in G. unfold error_keys in A. rewrite Kn in A by auto.
  destruct (population_shape _ _ _ _ _ _ Sh S0 G) as (P1 & P2 & P3 & P4 & P5 & P6 & P7 & P8).
  assert (data = pop) as ->.
  { rewrite reread_same in R; [now injection R as <-|lia|auto]. }
  exists raw, ri, pop, idx, (moment_groups 0 results). repeat (split; [assumption|]).
  destruct (moment_groups_spec results 0) as [M1 M2].
  destruct (used_keys_spec _ _ _ _ _ _ _ _ A) as [Lr U].
  split; [exact M2|]. split; [|split].
  - intros n m Hin. apply M1 in Hin as (k & e & E & _ & ->). exists k. split; [|reflexivity].
    assert (k < length results) by (apply nth_error_Some; congruence). lia.
  - intros i Hi. rewrite B. unfold event_file. destruct (nth_error results i) eqn:E; auto.
    assert (i < length results) by (apply nth_error_Some; congruence). lia.
  - intros i Hi.
    destruct (C72_posteriors _ _ _ _ _ _ _ _ _ A Hh Nd Hr (Hg r) i ltac:(lia)) as (table & T1 & T2 & T3 & _ & T5 & T6).
    assert (En : nth_error results i = Some (nth i results (Event [] None None))) by (apply nth_error_nth'; lia).
    exists table. split; [exact T1|]. split; [exact T2|]. split; [|split].
    + intros g k j H1 H2 H3. cbv zeta. rewrite T3 by auto. rewrite U by lia.
      rewrite (nth_indep _ (Seed 0) ((fun g => Child (Child key r) (i * length registry + g)) 0)) by now rewrite map_length, seq_length.
      rewrite (map_nth (fun g => Child (Child key r) (i * length registry + g))), seq_nth by auto. reflexivity.
    + intros E. destruct (T5 E) as [E1 E2]. split.
      * rewrite B. unfold event_file. rewrite En. destruct (nth i results _) as [ks [rows|] mo]; [discriminate|auto].
      * intros m Hin. apply M1 in Hin as (k & e & Ek & Em & Ei). apply event_name_inj in Ei. cbn in Ei. subst k.
        rewrite En in Ek. injection Ek as <-. congruence.
    + intros E. destruct (T6 E) as [E1 (m & E2 & E3)]. split.
      * rewrite B. unfold event_file. rewrite En. destruct (nth i results _) as [ks [rows|] mo]; cbn in E1; [|discriminate].
        now injection E1 as ->.
      * exists m. split; [exact E3|]. apply M1. exists i, (nth i results (Event [] None None)). auto.
Qed.

(** in a fresh directory an event has a posterior file exactly when it has moments *)
Theorem C123_fresh : forall d key d' hs r, sampler_shape -> error_shape hs -> run d key = Some d' -> r < N ->
  (forall i, d (path r (Posterior i)) = None) ->
  exists groups, d' (path r MeansCovs) = Some (Groups groups)
  /\ forall i, d' (path r (Posterior i)) <> None <-> In (event_name i) (map fst groups).
Proof.
  intros d key d' hs r Sh Eh H Hr Fd. destruct (C123_catalogue d key d' hs Sh Eh H) as (size & _ & _ & F & _).
  destruct (F r Hr) as (raw & ri & pop & idx & groups & _ & _ & _ & _ & M & _ & _ & _ & _ & _ & _ & _ & _ & Names & Beyond & Ev).
  exists groups. split; [exact M|]. intros i. destruct (Nat.lt_ge_cases i size) as [Hi|Hi].
  - destruct (Ev i Hi) as (table & _ & _ & _ & T1 & T2).
    destruct (filter complete table) as [|x t].
    + destruct (T1 eq_refl) as [A B]. rewrite A, Fd. split; [congruence|]. intros C.
      apply in_map_iff in C as ((n, m) & En & C). cbn in En. subst n. now apply B in C.
    + destruct (T2 ltac:(discriminate)) as [A (m & _ & B)]. rewrite A. split; [|discriminate]. intros _.
      apply in_map_iff. now exists (event_name i, m).
  - rewrite Beyond, Fd by auto. split; [congruence|]. intros C. apply in_map_iff in C as ((n, m) & En & C). cbn in En. subst n.
    apply Names in C as (k & Hk & E). apply event_name_inj in E. lia.
Qed.

(** The numbers of events of the realizations are not separate Poisson numbers: they are all the same. *)
Theorem C123_one_size_refuted : forall d key d' hs r s, sampler_shape -> error_shape hs -> run d key = Some d' ->
  r < N -> s < N -> exists pop_r pop_s,
  d' (path r Injections) = Some (Table ps pop_r) /\ d' (path s Injections) = Some (Table ps pop_s)
  /\ length pop_r = length pop_s.
Proof.
  intros d key d' hs r s Sh Eh H Hr Hs. destruct (C123_catalogue d key d' hs Sh Eh H) as (size & _ & _ & F & _).
  destruct (F r Hr) as (raw & ri & pop & idx & groups & F1 & _ & _ & _ & _ & _ & _ & L1 & _).
  destruct (F s Hs) as (raw' & ri' & pop' & idx' & groups' & F2 & _ & _ & _ & _ & _ & _ & L2 & _).
  exists pop, pop'. split; [exact F1|]. split; [exact F2|]. congruence.
Qed.

(** A second run into the same directory does not remove the posteriors of a first run with more events: they
    stay beside those of the second run, and the file of means and covariances does not mention them. *)
Theorem C123_second_run_refuted : forall d1 key d2 hs r i, sampler_shape -> error_shape hs -> run d1 key = Some d2 ->
  r < N -> (poisson (Child key 0) exp_rate <= Z.of_nat i)%Z -> d1 (path r (Posterior i)) <> None ->
  d2 (path r (Posterior i)) = d1 (path r (Posterior i))
  /\ exists groups, d2 (path r MeansCovs) = Some (Groups groups) /\ ~ In (event_name i) (map fst groups).
Proof.
  intros d1 key d2 hs r i Sh Eh H Hr Hi _. destruct (C123_catalogue d1 key d2 hs Sh Eh H) as (size & _ & Sz & F & _).
  destruct (F r Hr) as (raw & ri & pop & idx & groups & _ & _ & _ & _ & M & _ & _ & _ & _ & _ & _ & _ & _ & Names & Beyond & Ev).
  split; [apply Beyond; lia|]. exists groups. split; [exact M|]. intros C.
  apply in_map_iff in C as ((n, m) & En & C). cbn in En. subst n. apply Names in C as (k & Hk & E). apply event_name_inj in E. lia.
Qed.
End Catalogue.
Print Assumptions C123_catalogue.
Print Assumptions C123_fresh.
Print Assumptions C123_one_size_refuted.
Print Assumptions C123_second_run_refuted.

(** files of different realizations, and different files of one, have different paths *)
Theorem C123_paths : forall r f s g, path r f = path s g -> r = s /\ f = g.
Proof. exact path_inj. Qed.
Print Assumptions C123_paths.

(** two runs, of two events and of one *)
Definition ex_sample (_ : rng) (n : nat) : list row * list nat := (repeat [Fin 2; Fin 1]%R n, repeat 0 n).
Definition ex_poisson (k : rng) (_ : X) : Z := match k with Child (Seed 1) 0 => 2%Z | _ => 1%Z end.
Definition ex_parameters : list string := ["mass_1_source"; "mass_2_source"]%string.
Definition ex_registry : list (list string * (list X -> nat -> rng -> list (list X))) :=
  [(ex_parameters, fun v n _ => repeat [cell 0 v; cell 1 v] n)].
Definition ex_run := produce ex_sample None (fun _ _ n => repeat 0 n) ex_poisson (Fin 1) ex_parameters 2 2 (Some []) ex_registry
  (fun _ _ => repeat [NaN; NaN] 2).
Example C123_nonvacuous :
  sampler_shape ex_sample (fun _ _ n => repeat 0 n) ex_parameters
  /\ error_shape ex_parameters 2 ex_registry (fun _ _ => repeat [NaN; NaN] 2) [([0; 1], fun v n _ => repeat [cell 0 v; cell 1 v] n)]
  /\ exists d1 d2, ex_run (fun _ => None) (Seed 1) = Some d1 /\ ex_run d1 (Seed 2) = Some d2
     /\ d1 "data/realization_1/posteriors/event_1.dat"%string = Some (Table ex_parameters [[Fin 2; Fin 1]; [Fin 2; Fin 1]])%R
     /\ d2 "data/realization_1/posteriors/event_1.dat"%string = Some (Table ex_parameters [[Fin 2; Fin 1]; [Fin 2; Fin 1]])%R
     /\ d2 "data/realization_1/injections.dat"%string = Some (Table ex_parameters [[Fin 2; Fin 1]])%R.
Proof.
  split; [|split].
  - split.
    + intros k n. cbn. rewrite !repeat_length. repeat split. intros r H. now apply repeat_spec in H as ->.
    + intros k w n. apply repeat_length.
  - repeat split.
    + cbn. repeat constructor; cbn; intuition discriminate.
    + destruct H as [H|[]]. injection H as <- <-. apply repeat_length.
    + destruct H as [H|[]]. injection H as <- <-. intros r Hr. now apply repeat_spec in Hr as ->.
    + intros x Hx. now apply repeat_spec in Hx as ->.
  - assert (O1 : order_masses 0 1 [Fin 2; Fin 1]%R = [Fin 2; Fin 1]%R).
    { unfold order_masses, xmin, xmax. cbn. destruct (Rle_dec 2 1); [lra|]. cbn.
      destruct (Rle_dec (- (2)) (- (1))); [|lra]. cbn. now rewrite Ropp_involutive. }
    assert (G : forall n k, generate_population ex_sample None (fun _ _ n => repeat 0 n) ex_parameters n k
       = Some (repeat [Fin 2; Fin 1]%R n, repeat 0 n, repeat [Fin 2; Fin 1]%R n, repeat 0 n)).
    { intros n k. unfold generate_population, ex_sample. cbn [index_of ex_parameters]. cbn.
      assert (R : map (order_masses 0 1) (repeat [Fin 2; Fin 1]%R n) = repeat [Fin 2; Fin 1]%R n).
      { induction n; cbn [repeat map]; congruence. }
      now rewrite R. }
    assert (M : exists m, add_mean_and_covariance [[Fin 2; Fin 1]; [Fin 2; Fin 1]]%R ex_parameters (Some []) = Some m).
    { unfold add_mean_and_covariance. cbn. destruct (Req_EM_T (1 + 1) 0); [lra|]. cbn. eexists. reflexivity. }
    destruct M as [m M].
    pose (E k i := Event [Child k i] (Some [[Fin 2; Fin 1]; [Fin 2; Fin 1]]%R) (Some m)).
    pose (add k data := add_error ex_parameters 2 (Some []) ex_registry (fun _ => repeat [NaN; NaN] 2) k data).
    assert (A1 : forall k, add k [[Fin 2; Fin 1]]%R = Some [E k 0]).
    { intros k. unfold add, add_error. cbn -[IZR add_mean_and_covariance]. rewrite M. reflexivity. }
    assert (A2 : forall k, add k [[Fin 2; Fin 1]; [Fin 2; Fin 1]]%R = Some [E k 0; E k 1]).
    { intros k. unfold add, add_error. cbn -[IZR add_mean_and_covariance]. rewrite M. reflexivity. }
    unfold ex_run, produce, generate_realizations. cbn [split2 ex_poisson Z.leb Z.compare].
    cbn [for_range]. unfold write_realization. rewrite !G. unfold add_error_files.
    change (Z.to_nat 2) with 2. change (Z.to_nat 1) with 1.
    change (add_error ex_parameters 2 (Some []) ex_registry (fun _ : nat => repeat [NaN; NaN] 2)) with add.
    cbn -[IZR add]. rewrite !A2. cbn -[IZR add]. rewrite !A2. cbn -[IZR add].
    eexists. eexists. split; [reflexivity|].
    cbn -[IZR add]. rewrite !A1. cbn -[IZR add]. rewrite !A1. cbn -[IZR add].
    split; [reflexivity|]. repeat split; reflexivity.
Qed.
