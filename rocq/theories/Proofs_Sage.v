From Coq Require Import Reals Lra Lia List Bool QArith Permutation Sorting.Sorted.
From Verif Require Import Model_X Spec_X Proofs_X Model_Jenks Spec_Jenks Proofs_Jenks
     Model_Likelihood Spec_Likelihood Proofs_Likelihood Model_Sage.
Import ListNotations.
Open Scope R_scope.

(** ** batches *)
Lemma chunks_concat {A} size : forall n (l : list A),
  length l = (n * size)%nat -> concat (chunks size n l) = l.
Proof.
  induction n as [|n IH]; simpl; intros l H.
  - destruct l; [auto|discriminate].
  - rewrite IH; [apply firstn_skipn|]. rewrite skipn_length. lia.
Qed.

Lemma chunks_sizes {A} size : forall n (l : list A),
  length l = (n * size)%nat -> Forall (fun c => length c = size) (chunks size n l).
Proof.
  induction n as [|n IH]; simpl; intros l H; constructor.
  - rewrite firstn_length. lia.
  - apply IH. rewrite skipn_length. lia.
Qed.

Lemma batch_total {A} (l : list A) size :
  (0 < size)%nat -> (length l / size * size <= length l)%nat.
Proof. intros H. pose proof (Nat.mul_div_le (length l) size). lia. Qed.

Lemma batch_and_remainder_spec {A} (l : list A) size :
  (0 < size)%nat ->
  exists bs rem, batch_and_remainder l size = Some (bs, rem)
    /\ concat bs ++ rem = l
    /\ Forall (fun c => length c = size) bs
    /\ (length rem < size)%nat.
Proof.
  intros H. unfold batch_and_remainder. destruct size as [|size]; [lia|].
  set (k := S size) in *.
  pose proof (batch_total l k H) as Hle.
  assert (Hlen : length (firstn (length l / k * k) l) = (length l / k * k)%nat).
  { rewrite firstn_length. lia. }
  do 2 eexists. split; [reflexivity|]. split; [|split].
  - rewrite chunks_concat by auto. apply firstn_skipn.
  - now apply chunks_sizes.
  - rewrite skipn_length. pose proof (Nat.div_mod (length l) k). 
    pose proof (Nat.mod_upper_bound (length l) k). lia.
Qed.

(** ** variance cut *)
Lemma combine_map_self {A B} (f : A -> B) (l : list A) : combine l (map f l) = map (fun a => (a, f a)) l.
Proof. induction l; simpl; auto. now rewrite IHl. Qed.

Lemma boolean_index_map {A} (f : A -> bool) (l : list A) : boolean_index l (map f l) = filter f l.
Proof.
  unfold boolean_index. rewrite combine_map_self.
  induction l as [|a l IH]; simpl; auto. destruct (f a); simpl; now rewrite IH.
Qed.

Lemma fold_step_concat {A B} (f : A -> B) (bs : list (list A)) (acc : list B) :
  fold_left (fun mask b => Some (match mask with None => map f b | Some mk => mk ++ map f b end))
            bs (Some acc) = Some (acc ++ map f (concat bs)).
Proof.
  revert acc; induction bs as [|b bs IH]; intros acc; simpl; [now rewrite app_nil_r|].
  rewrite IH, map_app, app_assoc. reflexivity.
Qed.

Lemma variance_cut_spec {S} big batch (variance : S -> X) thr samples :
  (0 < batch)%nat -> samples <> [] ->
  variance_cut big batch variance thr samples
  = Some (filter (fun s => xltb (nan_to_num_inf big (variance s)) (Fin thr)) samples).
Proof.
  intros Hb Hne. unfold variance_cut.
  destruct (batch_and_remainder_spec samples batch Hb) as (bs & rem & E & Hc & Hs & Hr).
  rewrite E.
  set (iters := bs ++ match rem with [] => [] | _ => [rem] end).
  assert (Hit : concat iters = samples).
  { unfold iters. rewrite concat_app, <- Hc. f_equal. destruct rem; simpl; auto. now rewrite app_nil_r. }
  destruct iters as [|b its]; [simpl in Hit; congruence|].
  cbn [fold_left].
  rewrite fold_step_concat, <- map_app.
  simpl in Hit. rewrite Hit. now rewrite boolean_index_map.
Qed.

Lemma variance_cut_empty {S} big batch (variance : S -> X) thr :
  variance_cut big batch variance thr [] = None.
Proof.
  unfold variance_cut. destruct (batch_and_remainder [] batch) as [[bs rem]|] eqn:E; auto.
  unfold batch_and_remainder in E. destruct batch; [discriminate|].
  simpl length in E. rewrite Nat.div_0_l in E by lia. simpl in E. injection E as <- <-. reflexivity.
Qed.

(** ** read_data *)
Lemma Forall2_length {A B} (R : A -> B -> Prop) l m : Forall2 R l m -> length l = length m.
Proof. induction 1; simpl; auto. Qed.

Lemma same_shape_Forall2 {A B} (a : list (list (list A))) (b : list (list (list B))) :
  same_shape a b -> Forall2 (Forall2 (fun r s => length r = length s)) a b.
Proof. auto. Qed.

Lemma unpad_map {A B} (f : A -> B) mask row : unpad mask (map f row) = map f (unpad mask row).
Proof.
  unfold unpad. revert row; induction mask as [|k mask IH]; intros [|a row]; simpl; auto.
  destruct k; simpl; now rewrite IH.
Qed.

Lemma unpad_combine {A B} mask : forall (a : list A) (b : list B),
  length a = length mask -> length b = length mask ->
  unpad mask (combine a b) = combine (unpad mask a) (unpad mask b).
Proof.
  unfold unpad. induction mask as [|k mask IH]; intros [|x a] [|y b] H1 H2; simpl in *; try discriminate; auto.
  destruct k; simpl; rewrite IH; auto.
Qed.

Lemma where_row_length {A} mask : forall (a b : list A),
  length a = length mask -> length b = length mask -> length (where_row mask a b) = length mask.
Proof.
  unfold where_row. induction mask as [|k mask IH]; intros [|x a] [|y b] H1 H2; simpl in *; try discriminate; auto.
Qed.

Lemma unpad_where {A} mask : forall (a b : list A),
  length a = length mask -> length b = length mask ->
  unpad mask (where_row mask a b) = unpad mask a.
Proof.
  unfold unpad, where_row. induction mask as [|k mask IH]; intros [|x a] [|y b] H1 H2; simpl in *; try discriminate; auto.
  destruct k; simpl; rewrite IH; auto.
Qed.

Section RD.
Local Notation Row := (list X).

(** per-bucket assembly *)
Lemma bucket_events (masks : list (list bool)) : forall (data : list (list Row)) (refs : list (list Row)),
  Forall2 (fun r s => length r = length s) masks data ->
  Forall2 (fun r s => length r = length s) masks refs ->
  let refs' := map (map (hd NaN)) refs in
  let refs'' := map2 (fun mask row => where_row mask row (map (fun _ => Fin 0) row)) masks refs' in
  let b := mkbucket data refs'' masks in
  shape_eq data masks /\ shape_eq refs'' masks /\
  events_of_bucket b
  = map (fun p => combine (fst p) (map (hd NaN) (snd p)))
        (combine (map (fun q => unpad (fst q) (snd q)) (combine masks data))
                 (map (fun q => unpad (fst q) (snd q)) (combine masks refs))).
Proof.
  unfold shape_eq, events_of_bucket. cbn [b_data b_ref b_mask].
  intros data refs H. revert refs.
  induction H as [|k d masks data Hkd H IH]; intros refs Hr; inversion Hr as [|k' r masks' refs' Hkr Hr']; subst.
  - simpl. repeat split; constructor.
  - destruct (IH refs' Hr') as (I1 & I2 & I3). cbn [map2 map combine fst snd].
    assert (L1 : length (map (hd NaN) r) = length k) by (rewrite map_length; auto).
    assert (L2 : length (map (fun _ : X => Fin 0) (map (hd NaN) r)) = length k)
      by (rewrite !map_length; auto).
    repeat split.
    + constructor; auto.
    + constructor; auto. now apply where_row_length.
    + simpl in I3. rewrite I3. f_equal.
      rewrite unpad_combine by (auto; now apply where_row_length).
      rewrite unpad_where by auto. now rewrite unpad_map.
Qed.

Lemma rectangular_same_shape {A B} (a : list (list A)) (b : list (list B)) :
  rectangular a -> Forall2 (fun r s => length r = length s) a b -> rectangular b.
Proof.
  intros [w Hw] H. exists w. revert Hw. induction H; intros Hw; constructor; inversion Hw; subst; auto.
Qed.

Lemma combine_app2 {A B} (a1 a2 : list A) (b1 b2 : list B) :
  length a1 = length b1 -> combine (a1 ++ a2) (b1 ++ b2) = combine a1 b1 ++ combine a2 b2.
Proof. apply combine_app_eq. Qed.

Lemma group_events (masks : list (list (list bool))) :
  forall (data : list (list (list Row))) (refs : list (list (list Row))),
  same_shape masks data -> same_shape masks refs -> Forall rectangular masks ->
  let bs := map2 (fun d p => mkbucket d (fst p) (snd p)) data
                 (combine (map2 (map2 (fun mask row => where_row mask row (map (fun _ => Fin 0) row)))
                                masks (map (map (map (hd NaN))) refs)) masks) in
  Forall well_shaped bs /\
  flat_map events_of_bucket bs
  = map (fun p => combine (fst p) (map (hd NaN) (snd p)))
        (combine (unpad_buckets masks data) (unpad_buckets masks refs)).
Proof.
  unfold unpad_buckets. intros data refs H. revert refs.
  induction H as [|k d masks data Hkd H IH]; intros refs Hr Hrect;
    inversion Hr as [|k' r masks' refs' Hkr Hr']; subst.
  - simpl. auto.
  - inversion Hrect as [|? ? Hk Hrect']; subst.
    destruct (IH refs' Hr' Hrect') as [I1 I2].
    destruct (bucket_events k d r Hkd Hkr) as (J1 & J2 & J3).
    cbn [map2 map combine fst snd flat_map].
    split.
    + constructor; auto. split; [|split; auto].
      simpl. eapply rectangular_same_shape; eauto.
    + cbn [flat_map] in *. simpl in I2, J3. rewrite I2, J3.
      rewrite combine_app2.
      * now rewrite map_app.
      * rewrite !map_length, !combine_length.
        apply Forall2_length in Hkd. apply Forall2_length in Hkr. lia.
Qed.

Lemma nth_map_wrap (refs : list (list X)) i :
  map (hd NaN) (nth i (map (map (fun r : X => [r])) refs) []) = nth i refs [].
Proof.
  change (@nil (list X)) with (map (fun r : X => [r]) []) at 1.
  rewrite map_nth, map_map. simpl. now rewrite map_id.
Qed.

Lemma map_seq_nth {A} (l : list A) d : map (fun i => nth i l d) (seq 0 (length l)) = l.
Proof.
  induction l as [|a l IH]; simpl; auto. f_equal.
  rewrite <- seq_shift, map_map. exact IH.
Qed.

Lemma read_data_stores jb ndim events refs nb thr T bs const :
  breaks_sorted jb ->
  map (@length Row) events = map (@length X) refs ->
  read_data jb ndim events refs nb thr T = Some (bs, const) ->
  exists c, stores bs c /\ Permutation c (catalogue_of events refs).
Proof.
  intros Hjb Hlen H. unfold read_data in H.
  destruct (negb _) in H; [discriminate|].
  assert (HL : length events = length refs).
  { rewrite <- (map_length (@length Row)), Hlen. apply map_length. }
  destruct (pad_and_stack jb _ nb thr) as [[padded masks]|] eqn:E; [|discriminate].
  destruct padded as [|dg [|rg [|]]]; try discriminate.
  injection H as <- <-.
  eapply pad_and_stack_correct with (n := length events) in E; auto.
  - destruct E as (order & Hperm & _ & Hrect & Hf2).
    inversion Hf2 as [|? ? ? ? [S1 U1] Hf2']; subst.
    inversion Hf2' as [|? ? ? ? [S2 U2] _]; subst.
    destruct (group_events masks dg rg S1 S2 Hrect) as [G1 G2].
    eexists. split; [split; [exact G1|exact G2]|].
    rewrite U1, U2. cbn [items].
    transitivity (map (fun i => combine (nth i events []) (nth i refs [])) order).
    + apply Permutation_refl'.
      clear. induction order as [|i order IH]; simpl; auto. f_equal; auto.
      f_equal. apply nth_map_wrap.
    + rewrite Hperm. apply Permutation_refl'.
      unfold catalogue_of.
      transitivity (map (fun p : list Row * list X => combine (fst p) (snd p))
                        (map (fun i => nth i (combine events refs) ([], []))
                             (seq 0 (length (combine events refs))))).
      * rewrite combine_length, <- HL, Nat.min_id, map_map.
        apply map_ext. intros i. now rewrite combine_nth.
      * now rewrite map_seq_nth.
  - assert (Hw : map (@length Row) (map (map (fun r : X => [r])) refs) = map (@length X) refs).
    { rewrite map_map. apply map_ext. intros; apply map_length. }
    intros s t [<-|[<-|[]]] [<-|[<-|[]]]; cbn [items]; congruence.
  - intros s [<-|[<-|[]]]; cbn [items]; auto. now rewrite map_length.
Qed.

Lemma const_spec (events : list (list Row)) T :
  0 < T -> Forall (fun e => e <> []) events ->
  xadd (xopp (xsum (map (fun d => xln (Fin (INR (length d)))) events)))
       (xmul (Fin (INR (length events))) (xln (Fin T)))
  = Fin (rsum (map (fun e => ln (T / INR (length e))) events)).
Proof.
  intros HT He. rewrite xln_pos by auto. rewrite xmul_fin.
  assert (E : xsum (map (fun d => xln (Fin (INR (length d)))) events)
            = Fin (rsum (map (fun e => ln (INR (length e))) events))).
  { induction He as [|e events Hne He IH]; simpl map; [reflexivity|].
    change (xadd (xln (Fin (INR (length e))))
                 (xsum (map (fun d => xln (Fin (INR (length d)))) events))
            = Fin (ln (INR (length e)) + rsum (map (fun e => ln (INR (length e))) events))).
    rewrite IH.
    rewrite xln_pos; [reflexivity|]. apply lt_0_INR. destruct e; [congruence|simpl; lia]. }
  rewrite E. cbn [xopp xadd]. f_equal.
  clear E. induction He as [|e events Hne He IH]; [simpl; ring|].
  cbn [map rsum length]. rewrite S_INR, <- IH.
  assert (0 < INR (length e)) by (apply lt_0_INR; destruct e; [congruence|simpl; lia]).
  unfold Rdiv. rewrite ln_mult, ln_Rinv by (auto; now apply Rinv_0_lt_compat). ring.
Qed.

Lemma read_data_const jb ndim events refs nb thr T bs const :
  read_data jb ndim events refs nb thr T = Some (bs, const) ->
  0 < T -> Forall (fun e => e <> []) events ->
  const = Fin (rsum (map (fun e => ln (T / INR (length e))) events)).
Proof.
  intros H HT He. unfold read_data in H.
  destruct (negb _) in H; [discriminate|].
  destruct (pad_and_stack _ _ _ _) as [[padded masks]|]; [|discriminate].
  destruct padded as [|dg [|rg [|]]]; try discriminate.
  injection H as _ <-. now apply const_spec.
Qed.

(** sum of per-event terms with the constants distributed over the events *)
Lemma distribute_const (lp : Row -> X) T (events : list (list Row)) (refs : list (list X)) :
  length events = length refs ->
  xadd (Fin (rsum (map (fun e => ln (T / INR (length e))) events)))
       (xsum (map (event_term lp) (catalogue_of events refs)))
  = xsum (map (fun p => xadd (Fin (ln (T / INR (length (fst p)))))
                             (event_term lp (combine (fst p) (snd p)))) (combine events refs)).
Proof.
  unfold catalogue_of. revert refs; induction events as [|e events IH]; intros [|r refs] H; try discriminate.
  - simpl. f_equal; ring.
  - injection H as H. cbn [map combine fst snd xsum fold_right rsum].
    fold (xsum (map (event_term lp) (map (fun p => combine (fst p) (snd p)) (combine events refs)))).
    fold (xsum (map (fun p => xadd (Fin (ln (T / INR (length (fst p)))))
                             (event_term lp (combine (fst p) (snd p)))) (combine events refs))).
    rewrite <- IH by auto.
    set (a := ln (T / INR (length e))). set (s := rsum _).
    set (t := event_term lp (combine e r)). set (u := xsum _).
    change (Fin (a + s)) with (xadd (Fin a) (Fin s)).
    rewrite <- !xadd_assoc. f_equal. rewrite !xadd_assoc. f_equal. apply xadd_comm.
Qed.

Lemma read_data_likelihood jb ndim events refs nb thr T bs const
      (dist_fn : params -> model Row) mu prior vi cs x :
  breaks_sorted jb ->
  map (@length Row) events = map (@length X) refs ->
  0 < T -> Forall (fun e => e <> []) events ->
  read_data jb ndim events refs nb thr T = Some (bs, const) ->
  let m := dist_fn (cs ++ map_params vi x) in
  feasible_shape m ->
  flowmc_core dist_fn mu prior vi const cs x bs
  = nan_to_neginf (xadd (prior x)
      (xsub (xsum (map (fun p => xadd (Fin (ln (T / INR (length (fst p)))))
                             (event_term (m_lp m) (combine (fst p) (snd p)))) (combine events refs)))
            (mu m))).
Proof.
  intros Hjb Hlen HT He H m Hf.
  destruct (read_data_stores _ _ _ _ _ _ _ _ _ Hjb Hlen H) as (c & Hst & Hp).
  rewrite (flowmc_core_spec Row dist_fn mu prior vi const cs x bs c Hf Hst).
  unfold log_likelihood_spec. fold m.
  rewrite (xsum_permutation _ _ (Permutation_map (event_term (m_lp m)) Hp)).
  rewrite (read_data_const _ _ _ _ _ _ _ _ _ H HT He).
  rewrite distribute_const; auto.
  rewrite <- (map_length (@length Row)), Hlen. apply map_length.
Qed.
End RD.

Lemma variance_cut_keeps {S} big batch (variance : S -> X) thr samples :
  (0 < batch)%nat -> samples <> [] -> thr <= big ->
  variance_cut big batch variance thr samples
  = Some (filter (fun s => keeps big (variance s) thr) samples).
Proof.
  intros Hb Hne Ht. rewrite variance_cut_spec by auto. f_equal. apply filter_ext.
  intros s. destruct (variance s); simpl; auto.
  destruct (Rlt_dec big thr); auto; lra.
Qed.
