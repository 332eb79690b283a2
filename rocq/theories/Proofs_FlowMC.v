From Coq Require Import String List Arith Bool ZArith Reals Lia Lra FunctionalExtensionality.
From Coquelicot Require Import Coquelicot.
From Verif Require Import Model_X Proofs_X Model_Key Model_FlowMC.
Import ListNotations.
Open Scope nat_scope.

(** ** strategy order *)
Lemma loops_length n ph : length (loops n ph) = n * length ph.
Proof. induction n; cbn; auto. rewrite app_length. lia. Qed.
Lemma loops_slices n ph rest k : length ph = k ->
  map (fun i => slice (loops n ph ++ rest) (k * i) (k * (i + 1))) (seq 0 n) = repeat ph n.
Proof.
  intros Hk. revert rest. induction n as [|n IH]; intros rest; auto.
  cbn [seq map repeat loops]. f_equal.
  - rewrite Nat.mul_0_r. cbn [Nat.add]. unfold slice. rewrite Nat.mul_1_r, Nat.sub_0_r. cbn [skipn].
    rewrite <- app_assoc, firstn_app, <- Hk, firstn_all, Nat.sub_diag. cbn. apply app_nil_r.
  - rewrite <- seq_shift, map_map, <- (IH rest). apply map_ext. intros i. unfold slice.
    f_equal; [nia|]. rewrite <- app_assoc, skipn_app, Hk.
    replace (k * S i - k) with (k * i) by nia. rewrite skipn_all2 by (rewrite Hk; nia). reflexivity.
Qed.
Lemma concat_repeat ph n : concat (repeat ph n) = loops n ph.
Proof. induction n; cbn; congruence. Qed.
Lemma count_app s a b : count_str s (a ++ b) = count_str s a + count_str s b.
Proof. unfold count_str. now rewrite filter_app, app_length. Qed.
Lemma count_loops s ph n : count_str s (loops n ph) = n * count_str s ph.
Proof. induction n; cbn [loops]; auto. rewrite count_app. lia. Qed.
Lemma loops_in ph n s : In s (loops n ph) -> In s ph.
Proof. induction n; cbn; [easy|]. rewrite in_app_iff. intros [|]; auto. Qed.
Lemma slice_shift {A} (a l : list A) i j : slice (a ++ l) (length a + i) (length a + j) = slice l i j.
Proof. unfold slice. f_equal; [lia|]. rewrite skipn_app, skipn_all2 by lia. cbn. f_equal. lia. Qed.

Lemma bundle_schedule t p :
  sample_schedule bundle_strategies (bundle_order t p)
  = Some (Schedule (repeat training_phase t) ["reset_steppers"; "update_state"]%string (repeat production_phase p)).
Proof.
  unfold sample_schedule. replace (forallb _ _) with true.
  2:{ symmetry. apply forallb_forall. intros s Hs. unfold bundle_order in Hs. rewrite !in_app_iff in Hs.
      destruct Hs as [Hs|[Hs|Hs]]; [apply loops_in in Hs| |apply loops_in in Hs]; cbn in Hs;
      repeat (destruct Hs as [<-|Hs]; [reflexivity|]); destruct Hs. }
  replace (count_str "model_trainer" (bundle_order t p)) with t.
  2:{ unfold bundle_order. rewrite !count_app, !count_loops.
      change (count_str "model_trainer" training_phase) with 1.
      change (count_str "model_trainer" production_phase) with 0.
      change (count_str "model_trainer" ["reset_steppers"; "update_state"]%string) with 0. lia. }
  replace (length (bundle_order t p)) with (6 * t + 2 + 4 * p).
  2:{ unfold bundle_order. rewrite !app_length, !loops_length. cbn [length training_phase production_phase]. lia. }
  replace (Z.to_nat _) with p.
  2:{ replace (Z.of_nat (6 * t + 2 + 4 * p) - 6 * Z.of_nat t - 2)%Z with (Z.of_nat p * 4)%Z by lia.
      rewrite Z.div_mul by lia. lia. }
  f_equal. f_equal.
  - unfold bundle_order. now apply loops_slices.
  - unfold bundle_order. pose proof (loops_length t training_phase) as L. cbn [length training_phase] in L.
    replace (6 * t) with (length (loops t training_phase) + 0) by (rewrite L; lia).
    replace (length (loops t training_phase) + 0 + 2) with (length (loops t training_phase) + 2) by lia.
    rewrite slice_shift. reflexivity.
  - rewrite <- (loops_slices p production_phase [] 4 eq_refl). apply map_ext. intros i.
    unfold bundle_order. pose proof (loops_length t training_phase) as L. cbn [length training_phase] in L.
    replace (6 * t + 2) with (length (loops t training_phase) + 2) by (rewrite L; lia).
    rewrite <- !Nat.add_assoc. rewrite slice_shift.
    change 2 with (length ["reset_steppers"; "update_state"]%string).
    rewrite slice_shift. now rewrite app_nil_r.
Qed.

(** ** buffers *)
Lemma update_slice_mid a b c rows : length b = length rows ->
  update_slice (a ++ b ++ c) (length a) rows = a ++ rows ++ c.
Proof.
  intros E. unfold update_slice. rewrite !app_length.
  replace (Nat.min _ _) with (length a) by lia.
  rewrite firstn_app, firstn_all, Nat.sub_diag. cbn [firstn]. rewrite app_nil_r. do 2 f_equal.
  rewrite <- E, app_assoc, skipn_app, skipn_all2 by (rewrite app_length; lia).
  rewrite app_length, Nat.sub_diag. reflexivity.
Qed.
Lemma fresh_split n a b : fresh n (a + b) = fresh n a ++ fresh n b.
Proof. unfold fresh. apply repeat_app. Qed.
Lemma fresh_length n a : length (fresh n a) = a.
Proof. apply repeat_length. Qed.

Section Run.
Variables local_out global_out : nat -> nat -> list row.
Variables nl ng nd : nat.
Hypothesis Hl : forall k c, length (local_out k c) = nl.
Hypothesis Hg : forall k c, length (global_out k c) = ng.
Notation step := (run_strategy local_out global_out nl ng).
Notation steps := (run_strategies local_out global_out nl ng).

Lemma steps_app a b s : steps (a ++ b) s = steps b (steps a s).
Proof. unfold run_strategies. apply fold_left_app. Qed.

(** training loops leave the production buffer alone and call each stepper once *)
Lemma train_loop s : training s = true ->
  let s' := steps training_phase s in
  training s' = true /\ local_calls s' = S (local_calls s) /\ global_calls s' = S (global_calls s)
  /\ prod_buffer s' = prod_buffer s.
Proof.
  intros H. destruct s as [lc gc lp gp tr tb pb]. cbn in H. subst tr.
  cbv [run_strategies training_phase fold_left run_strategy String.eqb Ascii.eqb Bool.eqb write]. cbn. auto.
Qed.
Lemma train_loops n s : training s = true ->
  let s' := steps (loops n training_phase) s in
  training s' = true /\ local_calls s' = n + local_calls s /\ global_calls s' = n + global_calls s
  /\ prod_buffer s' = prod_buffer s.
Proof.
  revert s. induction n as [|n IH]; intros s H; [cbn; auto|]. cbn [loops]. rewrite steps_app.
  destruct (train_loop s H) as [A [B [C D]]]. destruct (IH _ A) as [A' [B' [C' D']]].
  cbn zeta. rewrite A', B', C', D', B, C, D. repeat split; auto; lia.
Qed.

(** rows written by [n] production loops from call number [t] on, for chain [c] *)
Definition loop_rows t n c := concat (map (fun j => local_out (t + j) c ++ global_out (t + j) c) (seq 0 n)).
Lemma loop_rows_S t n c : loop_rows t (S n) c = loop_rows t n c ++ local_out (t + n) c ++ global_out (t + n) c.
Proof. unfold loop_rows. rewrite seq_S, map_app, concat_app. cbn. now rewrite app_nil_r. Qed.
Lemma loop_rows_length t n c : length (loop_rows t n c) = n * (nl + ng).
Proof. induction n; auto. rewrite loop_rows_S, !app_length, IHn, Hl, Hg. lia. Qed.

Definition prod_inv t p n (s : state) : Prop :=
  training s = false /\ local_calls s = t + n /\ global_calls s = t + n
  /\ local_position s = n * (nl + ng)
  /\ forall c, prod_buffer s c = loop_rows t n c ++ fresh nd ((p - n) * (nl + ng)).
(** the buffer in the middle of loop [n], after its local steps *)
Definition prod_mid t p n (s : state) : Prop :=
  forall c, prod_buffer s c = loop_rows t n c ++ local_out (t + n) c ++ fresh nd ((p - n) * (nl + ng) - nl).

Lemma fresh_enough k a b : a <= b -> fresh k b = fresh k a ++ fresh k (b - a).
Proof. intros H. rewrite <- fresh_split. f_equal. lia. Qed.
Lemma prod_loop t p n s : n < p -> prod_inv t p n s ->
  let s1 := step "local_stepper" s in
  let s2 := step "update_global_step" s1 in
  let s3 := step "global_stepper" s2 in
  let s4 := step "update_local_step" s3 in
  prod_mid t p n s1 /\ prod_mid t p n s2
  /\ (forall c, prod_buffer s3 c = loop_rows t (S n) c ++ fresh nd ((p - S n) * (nl + ng)))
  /\ prod_inv t p (S n) s4.
Proof.
  intros Hn [H1 [H2 [H3 [H4 H5]]]]. destruct s as [lc gc lp gp tr tb pb]. cbn in H1, H2, H3, H4, H5. subst.
  assert (E1 : forall c, update_slice (pb c) (n * (nl + ng)) (local_out (t + n) c)
     = loop_rows t n c ++ local_out (t + n) c ++ fresh nd ((p - n) * (nl + ng) - nl)).
  { intros c. rewrite H5. rewrite (fresh_enough nd nl ((p - n) * (nl + ng))) by nia.
    rewrite <- (loop_rows_length t n c). apply update_slice_mid. now rewrite fresh_length, Hl. }
  assert (E2 : forall c, update_slice (loop_rows t n c ++ local_out (t + n) c ++ fresh nd ((p - n) * (nl + ng) - nl))
                 (n * (nl + ng) + nl) (global_out (t + n) c)
     = loop_rows t (S n) c ++ fresh nd ((p - S n) * (nl + ng))).
  { intros c. rewrite (fresh_enough nd ng ((p - n) * (nl + ng) - nl)) by nia.
    replace (n * (nl + ng) + nl) with (length (loop_rows t n c ++ local_out (t + n) c)).
    - rewrite app_assoc. rewrite update_slice_mid by now rewrite fresh_length, Hg.
      rewrite loop_rows_S, <- !app_assoc. do 3 f_equal. f_equal. nia.
    - now rewrite app_length, loop_rows_length, Hl. }
  cbv zeta.
  cbv [run_strategy String.eqb Ascii.eqb Bool.eqb write local_calls global_calls local_position global_position training train_buffer prod_buffer].
  split; [|split; [|split]].
  - intros c. cbn [prod_buffer]. apply E1.
  - intros c. cbn [prod_buffer]. apply E1.
  - intros c. rewrite E1. apply E2.
  - unfold prod_inv. cbn [prod_buffer training local_calls global_calls local_position].
    split; [reflexivity|]. split; [lia|]. split; [lia|]. split; [lia|].
    intros c. rewrite E1. apply E2.
Qed.

(** ** selecting the local rows *)
Definition select (m : nat) (buf : list row) : list row :=
  map (fun i => nth i buf []) (filter (fun idx => idx mod (nl + ng) <? nl) (seq 0 m)).
Lemma filter_map_comm {A B} (f : B -> bool) (g : A -> B) l : filter f (map g l) = map g (filter (fun x => f (g x)) l).
Proof. induction l; cbn; auto. destruct (f (g a)); cbn; now rewrite IHl. Qed.
Lemma filter_all_true {A} (f : A -> bool) l : (forall x, In x l -> f x = true) -> filter f l = l.
Proof. induction l as [|x l IH]; cbn; intros H; auto. rewrite H by auto. f_equal. apply IH. auto. Qed.
Lemma filter_all_false {A} (f : A -> bool) l : (forall x, In x l -> f x = false) -> filter f l = [].
Proof. induction l as [|x l IH]; cbn; intros H; auto. rewrite H by auto. apply IH. auto. Qed.
Lemma map_nth_seq {A} (d : A) l : map (fun i => nth i l d) (seq 0 (length l)) = l.
Proof.
  induction l as [|x l IH]; cbn; auto. f_equal. rewrite <- seq_shift, map_map. exact IH.
Qed.
Lemma select_block a b rest m : length a = nl -> length b = ng ->
  select (nl + ng + m) ((a ++ b) ++ rest) = a ++ select m rest.
Proof.
  intros Ha Hb. unfold select. rewrite seq_app, filter_app, map_app. f_equal.
  - rewrite seq_app, filter_app. rewrite filter_all_true, filter_all_false, app_nil_r.
    + rewrite <- Ha. transitivity (map (fun i => nth i a []) (seq 0 (length a))).
      * apply map_ext_in. intros i Hi. apply in_seq in Hi. rewrite !app_nth1; auto; rewrite ?app_length; lia.
      * apply map_nth_seq.
    + intros i Hi. apply in_seq in Hi. rewrite Nat.mod_small by lia. apply Nat.ltb_ge. lia.
    + intros i Hi. apply in_seq in Hi. rewrite Nat.mod_small by lia. apply Nat.ltb_lt. lia.
  - replace (seq (0 + (nl + ng)) m) with (map (fun i => i + (nl + ng)) (seq 0 m)).
    + rewrite filter_map_comm, map_map.
      transitivity (map (fun i => nth i rest []) (filter (fun x => (x + (nl + ng)) mod (nl + ng) <? nl) (seq 0 m))).
      * apply map_ext. intros i. rewrite app_nth2 by (rewrite app_length; lia). f_equal. rewrite app_length. lia.
      * f_equal. apply filter_ext. intros i. f_equal.
        destruct (Nat.eq_dec (nl + ng) 0) as [E|E]; [rewrite E; now rewrite Nat.add_0_r|].
        replace (i + (nl + ng)) with (i + 1 * (nl + ng)) by lia. now apply Nat.mod_add.
    + clear. cbn [Nat.add]. revert m. set (k := nl + ng). intros m.
      induction m as [|m IH]; auto. rewrite !seq_S, map_app, IH. cbn. f_equal. f_equal. lia.
Qed.
Definition local_rows t n c := concat (map (fun j => local_out (t + j) c) (seq 0 n)).
Lemma select_loops t n c m rest : select (n * (nl + ng) + m) (loop_rows t n c ++ rest) = local_rows t n c ++ select m rest.
Proof.
  revert t. induction n as [|n IH]; intros t; auto.
  unfold loop_rows, local_rows. cbn [seq map concat]. rewrite Nat.add_0_r.
  replace (S n * (nl + ng) + m) with (nl + ng + (n * (nl + ng) + m)) by lia.
  rewrite <- !app_assoc. rewrite (app_assoc (local_out t c) (global_out t c)).
  rewrite select_block by auto. f_equal.
  specialize (IH (S t)). unfold loop_rows, local_rows in IH.
  assert (E : forall (f : nat -> list row), concat (map (fun j => f (t + j)) (seq 1 n)) = concat (map (fun j => f (S t + j)) (seq 0 n))).
  { intros f. rewrite <- seq_shift, map_map. f_equal. apply map_ext. intros j. f_equal. lia. }
  rewrite (E (fun k => local_out k c ++ global_out k c)), (E (fun k => local_out k c)). exact IH.
Qed.
Definition no_neginf (r : row) : bool := negb (existsb isneginf r).
Lemma select_fresh m : 0 < nd -> filter no_neginf (select m (fresh nd m)) = [].
Proof.
  intros Hd. apply filter_all_false. intros r Hr. unfold select in Hr. apply in_map_iff in Hr.
  destruct Hr as [i [<- Hi]]. apply filter_In in Hi. destruct Hi as [Hi _]. apply in_seq in Hi.
  assert (E : nth i (fresh nd m) [] = repeat NInf nd).
  { unfold fresh. apply (repeat_spec m). apply nth_In. rewrite repeat_length. lia. }
  rewrite E. unfold no_neginf. destruct nd; [lia|]. reflexivity.
Qed.

Lemma filter_concat {A} (f : A -> bool) ls : filter f (concat ls) = concat (map (filter f) ls).
Proof. induction ls; cbn; auto. rewrite filter_app. congruence. Qed.
Lemma save_eq n_chains n_steps s :
  save_samples nl ng n_chains n_steps s
  = concat (map (fun c => filter no_neginf (select n_steps (prod_buffer s c))) (seq 0 n_chains)).
Proof. unfold save_samples. rewrite filter_concat, map_map. reflexivity. Qed.

Definition expected n_chains t n : list row :=
  concat (map (fun c => filter no_neginf (local_rows t n c)) (seq 0 n_chains)).
Lemma local_rows_S t n c : local_rows t (S n) c = local_rows t n c ++ local_out (t + n) c.
Proof. unfold local_rows. rewrite seq_S, map_app, concat_app. cbn. now rewrite app_nil_r. Qed.
Lemma save_full n_chains t p n s : 0 < nd -> n <= p ->
  (forall c, prod_buffer s c = loop_rows t n c ++ fresh nd ((p - n) * (nl + ng))) ->
  save_samples nl ng n_chains ((nl + ng) * p) s = expected n_chains t n.
Proof.
  intros Hd Hn H. rewrite save_eq. unfold expected. f_equal. apply map_ext. intros c. rewrite H.
  replace ((nl + ng) * p) with (n * (nl + ng) + (p - n) * (nl + ng)) by nia.
  rewrite select_loops, filter_app, select_fresh by auto. apply app_nil_r.
Qed.
Lemma save_mid n_chains t p n s : 0 < nd -> n < p -> prod_mid t p n s ->
  save_samples nl ng n_chains ((nl + ng) * p) s = expected n_chains t (S n).
Proof.
  intros Hd Hn H. rewrite save_eq. unfold expected. f_equal. apply map_ext. intros c. rewrite (H c).
  replace ((nl + ng) * p) with (n * (nl + ng) + (nl + ng + (p - S n) * (nl + ng))) by nia.
  rewrite select_loops. rewrite (fresh_enough nd ng) by nia.
  rewrite (app_assoc (local_out (t + n) c)), select_block by (auto using fresh_length).
  replace ((p - n) * (nl + ng) - nl - ng) with ((p - S n) * (nl + ng)) by nia.
  rewrite local_rows_S, app_assoc, filter_app, select_fresh by auto. apply app_nil_r.
Qed.

Notation run := (run_and_save local_out global_out nl ng).
Lemma run_loops n_chains t p k : forall n s, 0 < nd -> n + k = p -> prod_inv t p n s ->
  snd (run n_chains ((nl + ng) * p) (loops k production_phase) s)
  = concat (map (fun j => repeat (expected n_chains t (S j)) 4) (seq n k)).
Proof.
  induction k as [|k IH]; intros n s Hd Hk Hi; auto.
  destruct (prod_loop t p n s ltac:(lia) Hi) as [M1 [M2 [M3 M4]]].
  cbn [loops production_phase app run_and_save].
  set (s1 := step "local_stepper" s) in *. set (s2 := step "update_global_step" s1) in *.
  set (s3 := step "global_stepper" s2) in *. set (s4 := step "update_local_step" s3) in *.
  specialize (IH (S n) s4 Hd ltac:(lia) M4).
  destruct (run n_chains ((nl + ng) * p) (loops k production_phase) s4) as [sf saved] eqn:E.
  cbn [snd] in IH |- *. cbn [seq map concat repeat app].
  rewrite (save_mid n_chains t p n s1 Hd ltac:(lia) M1), (save_mid n_chains t p n s2 Hd ltac:(lia) M2),
    (save_full n_chains t p (S n) s3 Hd ltac:(lia) M3), (save_full n_chains t p (S n) s4 Hd ltac:(lia)).
  - now rewrite IH.
  - destruct M4 as [_ [_ [_ [_ M4]]]]. exact M4.
Qed.

Lemma saved_spec n_chains t p : 0 < nd ->
  saved_versions local_out global_out nl ng n_chains nd t p
  = Some (concat (map (fun j => repeat (expected n_chains t (S j)) 4) (seq 0 p))).
Proof.
  intros Hd. unfold saved_versions. rewrite bundle_schedule. cbn [tuning transition sampling].
  rewrite !concat_repeat. f_equal. rewrite steps_app.
  destruct (train_loops t (initial_state nl ng nd t p) eq_refl) as [T1 [T2 [T3 T4]]].
  set (s := steps (loops t training_phase) _) in *.
  apply run_loops; auto. unfold prod_inv. destruct s as [lc gc lp gp tr tb pb]. cbn in T1, T2, T3, T4. subst.
  cbv [run_strategies fold_left run_strategy String.eqb Ascii.eqb Bool.eqb].
  cbn [training local_calls global_calls local_position prod_buffer].
  split; [reflexivity|]. split; [lia|]. split; [lia|]. split; [lia|].
  intros c. cbn [loop_rows seq map concat app]. f_equal. lia.
Qed.
Lemma nth_blocks {A} (f : nat -> A) d p k : k < 4 * p ->
  nth k (concat (map (fun j => repeat (f j) 4) (seq 0 p))) d = f (k / 4).
Proof.
  assert (G : forall p n k, k < 4 * p -> nth k (concat (map (fun j => repeat (f j) 4) (seq n p))) d = f (n + k / 4)).
  { clear. induction p as [|p IH]; intros n k Hk; [lia|]. cbn [seq map concat].
    destruct (Nat.lt_ge_cases k 4) as [H|H].
    - rewrite app_nth1 by (rewrite repeat_length; lia). rewrite Nat.div_small, Nat.add_0_r by lia.
      apply (repeat_spec 4). apply nth_In. rewrite repeat_length. lia.
    - rewrite app_nth2 by (rewrite repeat_length; lia). rewrite repeat_length, IH by lia. f_equal.
      replace k with (k - 4 + 1 * 4) at 2 by lia. rewrite Nat.div_add by lia. lia. }
  intros Hk. now apply (G p 0).
Qed.
Lemma blocks_length {A} (f : nat -> A) p n : length (concat (map (fun j => repeat (f j) 4) (seq n p))) = 4 * p.
Proof. revert n. induction p; intros n; auto. cbn [seq map concat]. rewrite app_length, IHp, repeat_length. lia. Qed.
End Run.

(** ** leapfrog *)
Open Scope R_scope.
Lemma vec_ext (a b : vec) : (forall i, a i = b i) -> a = b.
Proof. intros H. now apply functional_extensionality. Qed.

Section Leapfrog.
Variables velocity gradient : vec -> vec.
Variable h : R.
Hypothesis odd : forall p, velocity (vneg p) = vneg (velocity p).

Inductive move := Drift | Kick (c : R).
Definition apply_move (m : move) (s : vec * vec) : vec * vec :=
  match m with
  | Drift => (vadd (fst s) (vscale h (velocity (snd s))), snd s)
  | Kick c => (fst s, vadd (snd s) (vneg (vscale (h * c) (gradient (fst s)))))
  end.
Definition moves (l : list move) (s : vec * vec) : vec * vec := fold_left (fun s m => apply_move m s) l s.
Definition flip (s : vec * vec) : vec * vec := (fst s, vneg (snd s)).
Lemma flip_flip s : flip (flip s) = s.
Proof. destruct s as [x p]. unfold flip. cbn. f_equal. apply vec_ext. intros i. unfold vneg. ring. Qed.
Lemma move_flip m s : apply_move m (flip (apply_move m s)) = flip s.
Proof.
  destruct s as [x p]. destruct m as [|c]; unfold apply_move, flip; cbn [fst snd]; f_equal.
  - rewrite odd. apply vec_ext. intros i. unfold vadd, vscale, vneg. ring.
  - apply vec_ext. intros i. unfold vadd, vscale, vneg. ring.
Qed.
Lemma moves_app a b s : moves (a ++ b) s = moves b (moves a s).
Proof. unfold moves. apply fold_left_app. Qed.
Lemma moves_flip l s : moves (rev l) (flip (moves l s)) = flip s.
Proof.
  revert s. induction l as [|m l IH]; intros s; auto. cbn [rev]. rewrite moves_app.
  change (moves (m :: l) s) with (moves l (apply_move m s)). rewrite IH. cbn. apply move_flip.
Qed.

Fixpoint middle (k : nat) : list move := match k with O => [] | S k => Drift :: Kick 1 :: middle k end.
Definition schedule_moves n := Kick (1/2) :: middle n ++ [Drift; Kick (1/2)].
Lemma middle_snoc k : middle (S k) = middle k ++ [Drift; Kick 1].
Proof. induction k as [|k IH]; auto. cbn [middle] in *. rewrite IH at 1. reflexivity. Qed.
Lemma middle_rev k : Drift :: rev (middle k) = middle k ++ [Drift].
Proof.
  induction k as [|k IH]; auto. rewrite middle_snoc, rev_app_distr. cbn [rev app].
  rewrite <- app_assoc. cbn [app]. change (Kick 1 :: Drift :: rev (middle k)) with ([Kick 1] ++ (Drift :: rev (middle k))).
  rewrite IH. change (Drift :: [Kick 1] ++ middle k ++ [Drift]) with (middle (S k) ++ [Drift]).
  rewrite middle_snoc, <- app_assoc. reflexivity.
Qed.
Lemma schedule_rev n : rev (schedule_moves n) = schedule_moves n.
Proof.
  unfold schedule_moves. cbn [rev]. rewrite rev_app_distr. cbn [rev app].
  f_equal. change (Drift :: rev (middle n) ++ [Kick (1/2)]) with ((Drift :: rev (middle n)) ++ [Kick (1/2)]).
  rewrite middle_rev, <- app_assoc. reflexivity.
Qed.

Lemma kernel_first n x p : leapfrog_kernel velocity gradient h n (x, p, 0%nat)
  = (fst (apply_move (Kick (1/2)) (x, p)), snd (apply_move (Kick (1/2)) (x, p)), 1%nat).
Proof.
  unfold leapfrog_kernel, leapfrog_coefs. rewrite Nat.add_1_r. cbn [Nat.eqb fst snd apply_move].
  replace (vadd x (vscale (h * 0) (velocity p))) with x; auto.
  apply vec_ext. intros i. unfold vadd, vscale. ring.
Qed.
Lemma kernel_mid n x p i : (0 < i < n + 1)%nat -> leapfrog_kernel velocity gradient h n (x, p, i)
  = (fst (moves [Drift; Kick 1] (x, p)), snd (moves [Drift; Kick 1] (x, p)), S i).
Proof.
  intros H. unfold leapfrog_kernel, leapfrog_coefs.
  destruct (Nat.eqb_spec i (n + 1)); [lia|]. destruct (Nat.eqb_spec i 0); [lia|].
  cbn [fst snd moves fold_left apply_move]. rewrite (Rmult_1_r h). reflexivity.
Qed.
Lemma kernel_last n x p : leapfrog_kernel velocity gradient h n (x, p, (n + 1)%nat)
  = (fst (moves [Drift; Kick (1/2)] (x, p)), snd (moves [Drift; Kick (1/2)] (x, p)), S (n + 1)).
Proof.
  unfold leapfrog_kernel, leapfrog_coefs. rewrite Nat.eqb_refl.
  cbn [fst snd moves fold_left apply_move]. rewrite (Rmult_1_r h). reflexivity.
Qed.
Lemma iter_mid n k : (k <= n)%nat -> forall s,
  Nat.iter (S k) (leapfrog_kernel velocity gradient h n) (fst s, snd s, 0%nat)
  = (fst (moves (Kick (1/2) :: middle k) s), snd (moves (Kick (1/2) :: middle k) s), S k).
Proof.
  induction k as [|k IH]; intros Hk s.
  - cbn [Nat.iter nat_rect]. change (Nat.iter 1 ?f ?x) with (f x). rewrite kernel_first. destruct s; reflexivity.
  - change (Nat.iter (S (S k)) ?f ?x) with (f (Nat.iter (S k) f x)). rewrite IH by lia.
    rewrite kernel_mid by lia. rewrite middle_snoc.
    change (Kick (1/2) :: middle k ++ [Drift; Kick 1]) with ((Kick (1/2) :: middle k) ++ [Drift; Kick 1]).
    rewrite moves_app. now rewrite <- !surjective_pairing.
Qed.
Lemma leapfrog_moves n x p : leapfrog_step velocity gradient h n x p = moves (schedule_moves n) (x, p).
Proof.
  unfold leapfrog_step. replace (n + 2)%nat with (S (S n)) by lia.
  change (Nat.iter (S (S n)) ?f ?x) with (f (Nat.iter (S n) f x)).
  pose proof (iter_mid n n (le_n n) (x, p)) as I. cbn [fst snd] in I. rewrite I. clear I. replace (S n) with (n + 1)%nat by lia. rewrite kernel_last.
  unfold schedule_moves.
  change (Kick (1/2) :: middle n ++ [Drift; Kick (1/2)]) with ((Kick (1/2) :: middle n) ++ [Drift; Kick (1/2)]).
  rewrite moves_app. cbn [fst]. now rewrite <- !surjective_pairing.
Qed.
Lemma leapfrog_reversible n x p x' p' : leapfrog_step velocity gradient h n x p = (x', p') ->
  leapfrog_step velocity gradient h n x' (vneg p') = (x, vneg p).
Proof.
  rewrite !leapfrog_moves. intros E.
  change (x', vneg p') with (flip (x', p')). rewrite <- E, <- (schedule_rev n) at 1. now rewrite moves_flip.
Qed.
End Leapfrog.

(** the gradient of an even function is odd *)
Lemma vneg_vneg (p : vec) : vneg (vneg p) = p.
Proof. apply vec_ext. intros i. unfold vneg. ring. Qed.
Definition set_coord (p : vec) (i : nat) (t : R) : vec := fun j => if (j =? i)%nat then t else p j.
Lemma even_gradient_odd (K : vec -> R) (v : vec -> vec) :
  (forall p, K (vneg p) = K p) ->
  (forall p i, is_derive (fun t => K (set_coord p i t)) (p i) (v p i)) ->
  forall p, v (vneg p) = vneg (v p).
Proof.
  intros He Hd p. apply vec_ext. intros i.
  pose proof (Hd (vneg p) i) as D1.
  assert (D2 : is_derive (fun t => K (set_coord (vneg p) i t)) (vneg p i) (- v p i)).
  { apply (is_derive_ext (fun t => K (set_coord p i (- t)))).
    - intros t. rewrite <- He. f_equal. apply vec_ext. intros j. unfold vneg, set_coord. destruct (j =? i)%nat; [ring|reflexivity].
    - replace (- v p i) with (scal (-1) (v p i)) by (unfold scal; cbn; unfold mult; cbn; ring).
      apply (is_derive_comp (fun t => K (set_coord p i t)) (fun t => - t)).
      + unfold vneg. rewrite Ropp_involutive. apply Hd.
      + auto_derive; auto. }
  apply is_derive_unique in D1. apply is_derive_unique in D2. unfold vneg at 2. congruence.
Qed.

(** ** kernel *)
Lemma xopp_xopp a : xopp (xopp a) = a.
Proof. destruct a; cbn; auto. f_equal. ring. Qed.
