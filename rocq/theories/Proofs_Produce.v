From Coq Require Import Decimal DecimalString ZArith.
From Coq Require Import String Ascii List Arith Bool Lia.
From Verif Require Import Model_X Model_Key Model_Guru Model_NPLMG Model_Population Model_Genie Model_Produce.
From Verif Require Import Spec_Produce Proofs_Config Proofs_NPLMG Proofs_Population Proofs_Genie.
Import ListNotations.
Open Scope nat_scope.

(** ** strings *)
Lemma app_assoc_s a b c : ((a ++ b) ++ c = a ++ (b ++ c))%string.
Proof. induction a; cbn; congruence. Qed.
Lemma app_nil_s a : (a ++ "" = a)%string.
Proof. induction a; cbn; congruence. Qed.
Lemma has_char_app c a b : has_char c (a ++ b) = has_char c a || has_char c b.
Proof. induction a as [|x a IH]; cbn; auto. rewrite IH. now destruct (Ascii.eqb x c). Qed.
Lemma split_at c a b a' b' : has_char c a = false -> has_char c a' = false ->
  (a ++ String c b = a' ++ String c b')%string -> a = a' /\ b = b'.
Proof.
  revert a'. induction a as [|x a IH]; intros [|y a'] Ha Ha' E; cbn in *.
  - injection E as E. auto.
  - injection E as <- E. now rewrite Ascii.eqb_refl in Ha'.
  - injection E as -> E. now rewrite Ascii.eqb_refl in Ha.
  - injection E as -> E. apply orb_false_iff in Ha as [_ Ha]. apply orb_false_iff in Ha' as [_ Ha'].
    destruct (IH a' Ha Ha' E) as [-> ->]. auto.
Qed.
Lemma uint_no_char c u : has_char c (NilEmpty.string_of_uint u) = true -> In c ["0"; "1"; "2"; "3"; "4"; "5"; "6"; "7"; "8"; "9"]%char.
Proof.
  induction u; cbn [NilEmpty.string_of_uint has_char]; [discriminate|..]; rewrite orb_true_iff; intros [H|H]; try (now apply IHu);
    apply Ascii.eqb_eq in H; subst c; cbn; tauto.
Qed.
Lemma digits_slash r : has_char "/" (digits r) = false.
Proof. destruct (has_char "/" (digits r)) eqn:E; auto. apply uint_no_char in E. cbn in E. intuition discriminate. Qed.
Lemma digits_dot r : has_char "." (digits r) = false.
Proof. destruct (has_char "." (digits r)) eqn:E; auto. apply uint_no_char in E. cbn in E. intuition discriminate. Qed.
Lemma digits_brace r : has_char "{" (digits r) = false.
Proof. destruct (has_char "{" (digits r)) eqn:E; auto. apply uint_no_char in E. cbn in E. intuition discriminate. Qed.
Lemma digits_inj i j : digits i = digits j -> i = j.
Proof. apply uint_string_inj. Qed.

Lemma event_file_inj i j : ("posteriors/event_" ++ digits i ++ ".dat" = "posteriors/event_" ++ digits j ++ ".dat")%string -> i = j.
Proof.
  intros E. apply append_inj_l in E. apply (split_at "." _ "dat" _ "dat") in E; [|apply digits_dot..].
  apply digits_inj, E.
Qed.
Lemma file_name_inj f g : file_name f = file_name g -> f = g.
Proof.
  destruct f, g; cbn [file_name]; intros E; auto; try discriminate E.
  apply event_file_inj in E. now subst.
Qed.
Lemma path_inj r f s g : path r f = path s g -> r = s /\ f = g.
Proof.
  unfold path. intros E. apply append_inj_l in E.
  apply (split_at "/" _ (file_name f) _ (file_name g)) in E; [|apply digits_slash..].
  destruct E as [A B]. split; [now apply digits_inj|now apply file_name_inj].
Qed.
Lemma event_name_inj i j : event_name i = event_name j -> i = j.
Proof. unfold event_name. intros E. apply append_inj_l in E. now apply digits_inj. Qed.

(** ** names built by the code *)
Lemma format_skip s t i : has_char "{" s = false -> format (s ++ t) i = (s ++ format t i)%string.
Proof.
  induction s as [|c s IH]; auto. cbn [has_char append]. intros H. apply orb_false_iff in H as [H1 H2].
  rewrite <- IH by auto. clear IH H2. apply Ascii.eqb_neq in H1.
  destruct c as [[] [] [] [] [] [] [] []]; try reflexivity. now destruct H1.
Qed.
Lemma format_event i : format "event_{}" i = event_name i.
Proof. cbn. now rewrite app_nil_s. Qed.
Lemma realization_dir r n : join (join root_dir (format realizations_dir r)) n = ("data/realization_" ++ digits r ++ "/" ++ n)%string.
Proof. unfold join. cbn. rewrite app_nil_s. reflexivity. Qed.
Lemma output_path r i :
  format (join (join (join root_dir (format realizations_dir r)) error_dir) event_filename) i = path r (Posterior i).
Proof.
  rewrite realization_dir. unfold join. change event_filename with "event_{}.dat"%string. change error_dir with "posteriors"%string.
  rewrite !app_assoc_s. rewrite (format_skip "data/realization_") by reflexivity. rewrite format_skip by apply digits_brace.
  reflexivity.
Qed.

(** ** the disk *)
Lemma write_same d p c : write d p c p = Some c.
Proof. unfold write. now rewrite String.eqb_refl. Qed.
Lemma write_other d p c q : q <> p -> write d p c q = d q.
Proof. unfold write. intros H. apply String.eqb_neq in H. now rewrite H. Qed.

Lemma for_range_ind {S} (f : S -> nat -> option S) (P : nat -> S -> Prop) : forall n i s s',
  for_range f i n s = Some s' -> P i s ->
  (forall k a b, i <= k < i + n -> P k a -> f a k = Some b -> P (1 + k) b) -> P (i + n) s'.
Proof.
  induction n as [|n IH]; intros i s s' H P0 Hs; cbn [for_range] in H.
  - injection H as <-. now rewrite Nat.add_0_r.
  - destruct (f s i) as [s1|] eqn:E; [|discriminate]. replace (i + Datatypes.S n) with (Datatypes.S i + n) by lia.
    apply (IH _ _ _ H).
    + apply (Hs i s s1); auto; lia.
    + intros k a b Hk. apply Hs. lia.
Qed.

Section Produce.
Variable sample : rng -> nat -> list row * list nat.
Variable log_selection : option (list row -> list X).
Variable choice : rng -> list X -> nat -> list nat.
Variable poisson : rng -> X -> Z.
Variable exp_rate : X.
Variable ps : list string.
Variables N sz : nat.
Variable tc : option (list (list string)).
Variable registry : list (list string * (list X -> nat -> rng -> list (list X))).
Variable garbage : nat -> nat -> list row.

Notation generate := (generate_population sample log_selection choice ps).
Definition population_written (d : disk) (size r : nat) (key : rng) : Prop :=
  exists raw raw_idx pop idx, generate size key = Some (raw, raw_idx, pop, idx)
    /\ d (path r Injections) = Some (Table ps pop) /\ d (path r Colours) = Some (Labels idx)
    /\ d (path r RawInjections) = Some (Table ps raw) /\ d (path r RawColours) = Some (Labels raw_idx).

Lemma write_realization_spec size keys d r d' :
  write_realization sample log_selection choice ps size keys d r = Some d' ->
  population_written d' size r (nth r keys (Seed 0))
  /\ forall p, p <> path r Injections -> p <> path r Colours -> p <> path r RawInjections -> p <> path r RawColours -> d' p = d p.
Proof.
  unfold write_realization. destruct (generate size (nth r keys (Seed 0))) as [[[[raw ri] pop] idx]|] eqn:G; [|discriminate].
  rewrite (realization_dir r injection_filename : _ = path r Injections).
  rewrite (realization_dir r "color.dat" : _ = path r Colours).
  rewrite (realization_dir r ("raw_" ++ injection_filename) : _ = path r RawInjections).
  rewrite (realization_dir r "raw_color.dat" : _ = path r RawColours). intros E. injection E as <-.
  assert (Ne : forall f g, f <> g -> path r f <> path r g) by (intros f g H E; apply path_inj in E; tauto).
  split.
  - exists raw, ri, pop, idx. split; [exact G|].
    split; [|split; [|split]].
    + do 3 rewrite write_other by (apply Ne; discriminate). apply write_same.
    + do 2 rewrite write_other by (apply Ne; discriminate). apply write_same.
    + rewrite write_other by (apply Ne; discriminate). apply write_same.
    + apply write_same.
  - intros p H1 H2 H3 H4. now rewrite !write_other.
Qed.

Lemma generate_spec d key d' :
  generate_realizations sample log_selection choice poisson exp_rate ps N d key = Some d' ->
  exists size, 0 < size /\ poisson (poisson_key key) exp_rate = Z.of_nat size
    /\ (forall r, r < N -> population_written d' size r (nth r (population_keys N key) (Seed 0)))
    /\ (forall p, (forall r f, r < N -> In f [Injections; Colours; RawInjections; RawColours] -> p <> path r f) -> d' p = d p).
Proof.
  unfold generate_realizations. cbn [split2]. destruct (Z.leb_spec (poisson (Child key 0) exp_rate) 0) as [Hz|Hz]; [discriminate|].
  set (size := Z.to_nat (poisson (Child key 0) exp_rate)). intros H.
  exists size. split; [unfold size; lia|]. split; [unfold size, poisson_key; cbn; lia|].
  pose (P := fun k (s : disk) =>
     (forall r, r < k -> population_written s size r (nth r (population_keys N key) (Seed 0)))
     /\ (forall p, (forall r f, r < k -> In f [Injections; Colours; RawInjections; RawColours] -> p <> path r f) -> s p = d p)).
  apply (for_range_ind _ P N 0 d d' H).
  - split; [lia|auto].
  - intros k a b [_ Hk] [P1 P2] E. apply write_realization_spec in E as [W F]. split.
    + intros r Hr. destruct (Nat.eq_dec r k) as [->|Hne]; [exact W|].
      destruct (P1 r ltac:(lia)) as (raw & ri & pop & idx & G & A & B & C & D).
      assert (Ne : forall f g, path r f <> path k g) by (intros f g Q; apply path_inj in Q; tauto).
      exists raw, ri, pop, idx. split; [exact G|]. repeat split; rewrite F by apply Ne; auto.
    + intros p Hp. rewrite F by (apply Hp; [lia|cbn; tauto]). apply P2. intros r f Hr. apply Hp. lia.
Qed.

Definition event_file (d : disk) (r : nat) (results : list event_result) (i : nat) : option content :=
  match nth_error results i with
  | Some (Event _ (Some rows) _) => Some (Table ps rows)
  | _ => d (path r (Posterior i))
  end.
Lemma write_events_spec out r (Ho : forall i, format out i = path r (Posterior i)) : forall results index d,
  (forall i, write_events ps out index results d (path r (Posterior (index + i))) = 
     match nth_error results i with
     | Some (Event _ (Some rows) _) => Some (Table ps rows)
     | _ => d (path r (Posterior (index + i)))
     end)
  /\ (forall p, (forall i, p <> path r (Posterior (index + i))) -> write_events ps out index results d p = d p).
Proof.
  induction results as [|e results IH]; intros index d; cbn [write_events].
  - split; auto. now intros [|i].
  - set (d1 := match posterior e with None => d | Some rows => write d (format out index) (Table ps rows) end).
    destruct (IH (S index) d1) as [A B].
    assert (D1 : forall p, p <> path r (Posterior index) -> d1 p = d p).
    { intros p Hp. unfold d1. destruct (posterior e); auto. rewrite Ho. now apply write_other. }
    split.
    + intros [|i].
      * rewrite Nat.add_0_r, B.
        2: { intros i E. apply path_inj in E. destruct E as [_ E]. injection E as E. lia. }
        cbn [nth_error]. unfold d1. destruct e as [ks [rows|] m]; cbn [posterior]; auto. rewrite Ho. apply write_same.
      * rewrite Nat.add_succ_r. change (S (index + i)) with (S index + i). rewrite A. cbn [nth_error].
        rewrite D1; auto. intros E. apply path_inj in E. destruct E as [_ E]. injection E as E. lia.
    + intros p Hp. rewrite B.
      * apply D1. specialize (Hp 0). now rewrite Nat.add_0_r in Hp.
      * intros i. specialize (Hp (S i)). now rewrite Nat.add_succ_r in Hp.
Qed.
Lemma moment_groups_spec : forall results i,
  (forall n m, In (n, m) (moment_groups i results) <->
     exists k e, nth_error results k = Some e /\ moments e = Some m /\ n = event_name (i + k))
  /\ NoDup (map fst (moment_groups i results)).
Proof.
  induction results as [|e results IH]; intros i; cbn [moment_groups].
  - split; [|constructor]. intros n m. split; [easy|]. intros ([|k] & e & E & _); discriminate E.
  - destruct (IH (S i)) as [A B].
    assert (Step : forall n m, (exists k e0, nth_error (e :: results) k = Some e0 /\ moments e0 = Some m /\ n = event_name (i + k)) <->
       (moments e = Some m /\ n = event_name i) \/ In (n, m) (moment_groups (S i) results)).
    { intros n m. rewrite A. split.
      - intros ([|k] & e0 & E & M & ->); cbn in E.
        + injection E as <-. left. now rewrite Nat.add_0_r.
        + right. exists k, e0. now rewrite Nat.add_succ_r.
      - intros [[M ->]|(k & e0 & E & M & ->)].
        + exists 0, e. now rewrite Nat.add_0_r.
        + exists (S k), e0. now rewrite Nat.add_succ_r. }
    destruct (moments e) as [m0|] eqn:M.
    + rewrite format_event. split.
      * intros n m. rewrite Step. cbn [In]. split; intros [H|H]; auto.
        { injection H as <- <-. now left. } { destruct H as [H ->]. left. congruence. }
      * cbn [map fst]. constructor; auto. intros H. apply in_map_iff in H as ((n, m) & En & H). cbn in En. subst n.
        apply A in H as (k & e0 & _ & _ & E). apply event_name_inj in E. lia.
    + split; [|exact B]. intros n m. rewrite Step. split; auto. intros [[H _]|H]; [discriminate|auto].
Qed.

Lemma add_error_files_spec keys d r d' :
  add_error_files ps sz tc registry garbage keys d r = Some d' ->
  exists header rows data results,
    d (path r Injections) = Some (Table header rows)
    /\ reread (length ps) rows = Some data
    /\ add_error ps sz tc registry (garbage r) (nth r keys (Seed 0)) data = Some results
    /\ (forall i, d' (path r (Posterior i)) = event_file d r results i)
    /\ d' (path r MeansCovs) = Some (Groups (moment_groups 0 results))
    /\ (forall p, p <> path r MeansCovs -> (forall i, p <> path r (Posterior i)) -> d' p = d p).
Proof.
  unfold add_error_files. pose proof (output_path r) as Ho. set (out := join (join _ error_dir) event_filename) in *.
  rewrite (realization_dir r injection_filename : _ = path r Injections).
  rewrite (realization_dir r mean_covs_filename : _ = path r MeansCovs).
  destruct (d (path r Injections)) as [[header rows|l|g]|]; try discriminate.
  destruct (reread (length ps) rows) as [data|] eqn:R; [|discriminate].
  destruct (add_error ps sz tc registry (garbage r) (nth r keys (Seed 0)) data) as [results|] eqn:A; [|discriminate].
  intros E. injection E as <-. destruct (write_events_spec out r Ho results 0 d) as [B C].
  exists header, rows, data, results. split; [auto|]. split; [exact R|]. split; [exact A|].
  split; [|split].
  - intros i. rewrite write_other; [apply B|]. intros E. apply path_inj in E. easy.
  - apply write_same.
  - intros p H1 H2. rewrite write_other by auto. apply C. auto.
Qed.

Definition errors_written (d0 d : disk) (r : nat) (key : rng) (pop : list row) : Prop :=
  exists data results,
    reread (length ps) pop = Some data
    /\ add_error ps sz tc registry (garbage r) key data = Some results
    /\ (forall i, d (path r (Posterior i)) = event_file d0 r results i)
    /\ d (path r MeansCovs) = Some (Groups (moment_groups 0 results)).

Lemma produce_files d key d' :
  produce sample log_selection choice poisson exp_rate ps N sz tc registry garbage d key = Some d' ->
  exists size, 0 < size /\ poisson (poisson_key key) exp_rate = Z.of_nat size
    /\ (forall r, r < N -> exists raw raw_idx pop idx,
         generate size (nth r (population_keys N key) (Seed 0)) = Some (raw, raw_idx, pop, idx)
         /\ d' (path r Injections) = Some (Table ps pop) /\ d' (path r Colours) = Some (Labels idx)
         /\ d' (path r RawInjections) = Some (Table ps raw) /\ d' (path r RawColours) = Some (Labels raw_idx)
         /\ errors_written d d' r (nth r (error_keys N key) (Seed 0)) pop)
    /\ (forall p, (forall r f, r < N -> p <> path r f) -> d' p = d p).
Proof.
  unfold produce. destruct (generate_realizations _ _ _ _ _ _ _ _ _) as [d1|] eqn:G; [|discriminate].
  apply generate_spec in G as (size & S0 & Sz & W & F). intros H. exists size. split; [exact S0|]. split; [exact Sz|].
  pose (P := fun k (s : disk) =>
     (forall r, r < k -> exists pop, d1 (path r Injections) = Some (Table ps pop)
         /\ errors_written d s r (nth r (error_keys N key) (Seed 0)) pop)
     /\ (forall p, (forall r f, r < k -> (f = MeansCovs \/ exists i, f = Posterior i) -> p <> path r f) -> s p = d1 p)).
  assert (P N d') as [P1 P2].
  { apply (for_range_ind _ P N 0 d1 d' H).
    - split; [lia|auto].
    - intros k a b [_ Hk] [P1 P2] E. apply add_error_files_spec in E as (header & rows & data & results & I & R & A & B & C & D).
      assert (Fr : forall g, a (path k g) = d1 (path k g)).
      { intros g. apply P2. intros r f Hr _ E. apply path_inj in E. lia. }
      split.
      + intros r Hr. destruct (Nat.eq_dec r k) as [->|Hne].
        * destruct (W k Hk) as (raw & ri & pop & idx & _ & J & _). exists pop. split; [exact J|].
          rewrite Fr, J in I. injection I as _ <-. exists data, results. repeat split; auto.
          intros i. rewrite B. unfold event_file.
          assert (Pd : a (path k (Posterior i)) = d (path k (Posterior i))).
          { rewrite Fr. apply F. intros r f _ Hf E. apply path_inj in E as [_ <-]. cbn in Hf. intuition discriminate. }
          now rewrite Pd.
        * destruct (P1 r ltac:(lia)) as (pop & J & da & re & X1 & X2 & X3 & X4). exists pop. split; [exact J|].
          assert (Ne : forall f g, path r f <> path k g) by (intros f g Q; apply path_inj in Q; tauto).
          exists da, re. repeat split; auto.
          { intros i. rewrite D; [apply X3|apply Ne|intros; apply Ne]. }
          { rewrite D; [apply X4|apply Ne|intros; apply Ne]. }
      + intros p Hp. rewrite D.
        * apply P2. intros r f Hr. apply Hp. lia.
        * apply Hp; auto.
        * intros i. apply Hp; eauto. }
  split.
  - intros r Hr. destruct (W r Hr) as (raw & ri & pop & idx & G & A & B & C & D).
    assert (Fr : forall f, In f [Injections; Colours; RawInjections; RawColours] -> d' (path r f) = d1 (path r f)).
    { intros f Hf. apply P2. intros s g _ Hg E. apply path_inj in E as [_ <-]. cbn in Hf.
      destruct Hg as [->|[i ->]]; intuition discriminate. }
    exists raw, ri, pop, idx. rewrite !Fr by (cbn; tauto). repeat (split; [assumption|]).
    destruct (P1 r Hr) as (pop' & J & E). rewrite A in J. injection J as <-. exact E.
  - intros p Hp. rewrite P2 by (intros; now apply Hp). apply F. intros; now apply Hp.
Qed.
End Produce.
Lemma take_all {A} (x : A) l : l = map (take x l) (seq 0 (length l)).
Proof.
  apply (nth_ext _ _ x x).
  - now rewrite map_length, seq_length.
  - intros i Hi. rewrite (nth_indep (map (take x l) _) x (take x l 0)) by now rewrite map_length, seq_length.
    rewrite map_nth, seq_nth by auto. unfold take. cbn [Nat.add]. now rewrite Nat.min_l by lia.
Qed.
