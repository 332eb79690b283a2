From Coq Require Import List Bool Arith QArith Lia Permutation Sorting.Sorted.
From Verif Require Import Model_Jenks Spec_Jenks.
Import ListNotations.
Open Scope nat_scope.

(** ** slices *)
Lemma skipn_skipn {B} (l : list B) : forall a b, skipn a (skipn b l) = skipn (a + b) l.
Proof.
  induction l as [|x l IH]; intros a b; [now rewrite !skipn_nil|].
  destruct b as [|b]; [now rewrite Nat.add_0_r|].
  rewrite Nat.add_succ_r. simpl. apply IH.
Qed.

Lemma slice_app {B} (l : list B) a b c :
  a <= b -> b <= c -> slice l a b ++ slice l b c = slice l a c.
Proof.
  unfold slice; intros Hab Hbc.
  replace (skipn b l) with (skipn (b - a) (skipn a l)).
  2:{ rewrite skipn_skipn. f_equal; lia. }
  generalize (skipn a l) as m; intros m.
  replace (c - a) with ((b - a) + (c - b)) by lia.
  generalize (b - a) as p, (c - b) as q. clear.
  intros p; revert m; induction p as [|p IH]; intros [|x m] q; simpl; auto.
  - now rewrite firstn_nil.
  - now rewrite IH.
Qed.

Lemma slice_same {B} (l : list B) a : slice l a a = [].
Proof. unfold slice. now rewrite Nat.sub_diag. Qed.

Lemma slice_full {B} (l : list B) : slice l 0 (length l) = l.
Proof. unfold slice. simpl. rewrite Nat.sub_0_r. apply firstn_all. Qed.

Lemma last_cons_shift {B} (l : list B) a b : last (b :: l) a = last l b.
Proof.
  revert b; induction l as [|c l IH]; intros b; [reflexivity|].
  change (last (b :: c :: l) a) with (last (c :: l) a). rewrite IH.
  symmetry. destruct l; [reflexivity|].
  change (last (c :: b0 :: l) b) with (last (b0 :: l) b).
  clear. revert b0; induction l as [|d l IH]; intros b0; [reflexivity|]. apply (IH d).
Qed.

Lemma sorted_last_ge rest : forall b, Sorted le (b :: rest) -> b <= last rest b.
Proof.
  induction rest as [|c r IH]; intros b H; [auto|].
  inversion H as [|? ? H1 H2]; subst. inversion H2; subst.
  rewrite last_cons_shift. specialize (IH c H1). lia.
Qed.

Lemma get_subsets_concat {B} (l : list B) : forall rest a,
  Sorted le (a :: rest) -> concat (get_subsets l (a :: rest)) = slice l a (last rest a).
Proof.
  induction rest as [|b rest IH]; intros a H.
  - simpl. now rewrite slice_same.
  - change (concat (get_subsets l (a :: b :: rest)))
      with (slice l a b ++ concat (get_subsets l (b :: rest))).
    inversion H as [|? ? H1 H2]; subst. inversion H2; subst.
    rewrite IH, last_cons_shift by auto. apply slice_app; auto.
    now apply sorted_last_ge.
Qed.

Definition good_indexes (n : nat) (idx : list nat) : Prop :=
  exists b rest, idx = 0 :: b :: rest /\ Sorted le idx /\ last idx 0 = n.

Lemma good_subsets_concat {B} (l : list B) idx :
  good_indexes (length l) idx -> concat (get_subsets l idx) = l.
Proof.
  intros (b & rest & -> & Hs & Hl).
  rewrite get_subsets_concat by auto.
  change (last (0 :: b :: rest) 0) with (last (b :: rest) 0) in Hl.
  rewrite Hl. apply slice_full.
Qed.

(** ** break indexes *)
Lemma searchsorted_le data v : searchsorted_right data v <= length data.
Proof.
  unfold searchsorted_right. induction data as [|d data IH]; simpl; auto.
  destruct (d <=? v); simpl; lia.
Qed.

Lemma searchsorted_mono data u v :
  u <= v -> searchsorted_right data u <= searchsorted_right data v.
Proof.
  unfold searchsorted_right. intros H. induction data as [|d data IH]; simpl; auto.
  destruct (d <=? u) eqn:E1, (d <=? v) eqn:E2; simpl; try lia.
  apply Nat.leb_le in E1. apply Nat.leb_gt in E2. lia.
Qed.

Lemma right_most_index_S data v r :
  right_most_index data v = Some r -> S r = searchsorted_right data v.
Proof.
  unfold right_most_index. destruct (searchsorted_right data v =? 0) eqn:E; simpl; [discriminate|].
  apply Nat.eqb_neq in E.
  destruct (negb _); [discriminate|]. intros [= <-]. lia.
Qed.

Lemma map_option_right_most data : forall bs rs,
  map_option (right_most_index data) bs = Some rs ->
  map S rs = map (searchsorted_right data) bs.
Proof.
  induction bs as [|b bs IH]; simpl; intros rs H; [injection H as <-; auto|].
  destruct (right_most_index data b) eqn:E; [|discriminate].
  destruct (map_option _ bs) eqn:E2; [|discriminate].
  injection H as <-. simpl. now rewrite (right_most_index_S _ _ _ E), (IH _ eq_refl).
Qed.

Lemma Sorted_map_mono {B C} (R : B -> B -> Prop) (S : C -> C -> Prop) (f : B -> C) l :
  (forall x y, R x y -> S (f x) (f y)) -> Sorted R l -> Sorted S (map f l).
Proof.
  intros Hf. induction 1 as [|a l Hl IH Hhd]; simpl; constructor; auto.
  destruct Hhd; simpl; constructor; auto.
Qed.

Lemma Sorted_set_last (l : list nat) v :
  l <> [] -> Sorted le l -> Forall (fun x => x <= v) l -> Sorted le (set_last l v).
Proof.
  unfold set_last. induction l as [|a l IH]; [congruence|].
  intros _ Hs Hf. inversion Hs; inversion Hf; subst.
  destruct l as [|b l].
  - simpl. repeat constructor.
  - change (removelast (a :: b :: l)) with (a :: removelast (b :: l)).
    simpl app. constructor.
    + apply IH; [congruence|auto|auto].
    + destruct l; simpl.
      * constructor; auto.
      * constructor. inversion H2; auto.
Qed.

Lemma last_set_last {B} (l : list B) v d : last (set_last l v) d = v.
Proof. unfold set_last. apply last_last. Qed.

Lemma jenks_natural_breaks_good jb data n idx :
  breaks_sorted jb ->
  jenks_natural_breaks jb data n = Some idx ->
  get_subsets data idx <> [] ->
  good_indexes (length data) idx.
Proof.
  intros Hjb H Hne. unfold jenks_natural_breaks in H.
  destruct (_ || _); [discriminate|].
  destruct (if n =? 1 then _ else _) as [breaks|] eqn:Eb; [|discriminate].
  destruct (map_option _ (tl breaks)) as [rm|] eqn:Er; [|discriminate].
  assert (Hst : Sorted le (tl breaks)).
  { destruct (n =? 1).
    - injection Eb as <-. simpl. repeat constructor.
    - apply Hjb in Eb. destruct breaks; simpl; [constructor|]. now inversion Eb. }
  apply map_option_right_most in Er. rewrite Er in H.
  set (ends := map (searchsorted_right data) (tl breaks)) in *.
  assert (Hs : Sorted le (0 :: ends)).
  { constructor.
    - apply (Sorted_map_mono le); [|auto]. intros; now apply searchsorted_mono.
    - destruct ends; constructor; lia. }
  assert (Hle : Forall (fun x => x <= length data) (0 :: ends)).
  { constructor; [lia|]. apply Forall_map, Forall_forall. intros; apply searchsorted_le. }
  destruct ends as [|b rest] eqn:Ee.
  - exfalso. apply Hne.
    destruct (last [0] 0 =? length data) in H; injection H as <-; reflexivity.
  - destruct (last (0 :: b :: rest) 0 =? length data) eqn:El; injection H as <-.
    + exists b, rest. split; [auto|]. split; [auto|]. now apply Nat.eqb_eq in El.
    + unfold good_indexes.
      assert (Hx : exists b' rest', set_last (0 :: b :: rest) (length data) = 0 :: b' :: rest').
      { unfold set_last. destruct rest as [|c rest]; simpl; eauto. }
      destruct Hx as (b' & rest' & Hx). exists b', rest'. split; [auto|]. split.
      * rewrite <- Ee in *. apply Sorted_set_last; [congruence|auto|auto].
      * apply last_set_last.
Qed.

Lemma partition_for_bucket_good jb data n idx q :
  breaks_sorted jb ->
  partition_data_for_bucket jb data n = Some (idx, q) -> good_indexes (length data) idx.
Proof.
  intros Hjb H. unfold partition_data_for_bucket in H.
  destruct (jenks_natural_breaks jb data n) as [ix|] eqn:E; [|discriminate].
  destruct (get_subsets data ix) eqn:Es; [discriminate|].
  injection H as <- <-. eapply jenks_natural_breaks_good; eauto. congruence.
Qed.

Lemma good_single n : good_indexes n [0; n].
Proof. exists n, []. repeat split; auto. repeat constructor; lia. Qed.

Lemma partition_data_good jb data nb thr idx :
  breaks_sorted jb -> data <> [] ->
  partition_data jb data nb thr = Some idx -> good_indexes (length data) idx.
Proof.
  intros Hjb Hne H. unfold partition_data in H.
  destruct data as [|d data]; [congruence|].
  set (dd := d :: data) in *.
  destruct (_ =? 1) in H.
  { injection H as <-. apply good_single. }
  destruct nb as [nb|].
  - destruct (partition_data_for_bucket jb dd _) as [[ix q]|] eqn:E in H; [|discriminate].
    injection H as <-. eapply partition_for_bucket_good; eauto.
  - destruct (_ <=? 1) in H.
    { injection H as <-. apply good_single. }
    destruct (_ <? 1) in H; [discriminate|].
    destruct (partition_data_for_bucket jb dd _) as [[ix q]|] eqn:E in H; [|discriminate].
    injection H as <-. eapply partition_for_bucket_good; eauto.
Qed.

(** ** padding *)
Lemma combine_app_eq {B C} (l1 l2 : list B) (m1 m2 : list C) :
  length l1 = length m1 -> combine (l1 ++ l2) (m1 ++ m2) = combine l1 m1 ++ combine l2 m2.
Proof.
  revert m1; induction l1 as [|x l1 IH]; intros [|y m1]; simpl; intros H; try discriminate; auto.
  rewrite IH; auto.
Qed.

Lemma unpad_true {B} (b : list B) : unpad (repeat true (length b)) b = b.
Proof. unfold unpad. induction b; simpl; auto. now rewrite IHb. Qed.

Lemma unpad_false {B} n (b : list B) : unpad (repeat false n) b = [].
Proof. unfold unpad. revert b. induction n; intros [|x b]; simpl; auto. Qed.

Lemma unpad_pad {B} (b : list B) (z : B) k :
  unpad (repeat true (length b) ++ repeat false k) (b ++ repeat z k) = b.
Proof.
  unfold unpad. rewrite combine_app_eq by now rewrite repeat_length.
  rewrite filter_app, map_app.
  change (unpad (repeat true (length b)) b ++ unpad (repeat false k) (repeat z k) = b).
  rewrite unpad_true, unpad_false. apply app_nil_r.
Qed.

Lemma bucket_width_ext {A B} (a : list (list A)) (b : list (list B)) :
  Forall2 (fun r s => length r = length s) a b -> bucket_width a = bucket_width b.
Proof.
  unfold bucket_width. intros H. f_equal. induction H; simpl; congruence.
Qed.

Lemma unpad_bucket {A B} (z : B) (a : list (list A)) (b : list (list B)) :
  Forall2 (fun r s => length r = length s) a b ->
  map (fun q => unpad (fst q) (snd q)) (combine (bucket_mask a) (pad_and_stack_bucket z b)) = b.
Proof.
  intros H. unfold bucket_mask, pad_and_stack_bucket.
  rewrite (bucket_width_ext _ _ H). generalize (bucket_width b) as w. intros w.
  induction H as [|r s a b Hrs H IH]; simpl; auto.
  f_equal; auto. rewrite Hrs. apply unpad_pad.
Qed.

Lemma unpad_buckets_pad {A B} (z : B) (a : list (list (list A))) (b : list (list (list B))) :
  same_shape a b ->
  unpad_buckets (map bucket_mask a) (map (pad_and_stack_bucket z) b) = concat b.
Proof.
  unfold unpad_buckets. induction 1 as [|r s a b Hrs H IH]; simpl; auto.
  f_equal; auto. now apply unpad_bucket.
Qed.

Lemma max_list_ge l x : In x l -> x <= max_list l.
Proof. induction l; simpl; [tauto|]. intros [->|H]; [lia|]. apply IHl in H. lia. Qed.

Lemma padded_shape {A B} (z : B) (a : list (list A)) (b : list (list B)) :
  Forall2 (fun r s => length r = length s) a b ->
  Forall2 (fun r s => length r = length s) (bucket_mask a) (pad_and_stack_bucket z b).
Proof.
  intros H. unfold bucket_mask, pad_and_stack_bucket. rewrite (bucket_width_ext _ _ H).
  generalize (bucket_width b) as w. intros w.
  induction H as [|r s a b Hrs H IH]; simpl; constructor; auto.
  rewrite !app_length, !repeat_length. lia.
Qed.

Lemma mask_rectangular {A} (a : list (list A)) :
  Forall (fun row => length row = bucket_width a) (bucket_mask a).
Proof.
  unfold bucket_mask. apply Forall_map, Forall_forall. intros b Hb.
  rewrite app_length, !repeat_length.
  assert (length b <= bucket_width a).
  { unfold bucket_width. apply max_list_ge. now apply in_map. }
  lia.
Qed.

(** ** sorting *)
Lemma insert_by_perm {B} key (x : B) l : Permutation (insert_by key x l) (x :: l).
Proof.
  induction l as [|y l IH]; simpl; auto.
  destruct (key x <=? key y); auto.
  rewrite IH. apply perm_swap.
Qed.

Lemma sort_by_perm {B} key (l : list B) : Permutation (sort_by key l) l.
Proof. induction l as [|x l IH]; simpl; auto. now rewrite insert_by_perm, IH. Qed.

(** Stable order: strictly by (key, original position) for a list with increasing tags. *)
Definition lex {B} (key tag : B -> nat) (x y : B) : Prop :=
  key x < key y \/ (key x = key y /\ tag x < tag y).

Lemma lex_trans {B} (key tag : B -> nat) x y z : lex key tag x y -> lex key tag y z -> lex key tag x z.
Proof. unfold lex; lia. Qed.

Lemma insert_by_sorted {B} (key tag : B -> nat) x l :
  Forall (fun y => tag x < tag y) l ->
  StronglySorted (lex key tag) l -> StronglySorted (lex key tag) (insert_by key x l).
Proof.
  intros Hf. induction 1 as [|y l Hs IH Hy]; simpl.
  - repeat constructor.
  - inversion Hf; subst.
    destruct (key x <=? key y) eqn:E.
    + apply Nat.leb_le in E. constructor; [constructor; auto|].
      assert (lex key tag x y) by (unfold lex; lia).
      constructor; auto. eapply Forall_impl; [|exact Hy]. intros; eapply lex_trans; eauto.
    + apply Nat.leb_gt in E. constructor; auto.
      eapply Permutation_Forall; [symmetry; apply insert_by_perm|].
      constructor; auto. unfold lex; lia.
Qed.

Lemma sort_by_sorted {B} (key tag : B -> nat) l :
  StronglySorted (fun x y => tag x < tag y) l -> StronglySorted (lex key tag) (sort_by key l).
Proof.
  induction 1 as [|x l Hs IH Hx]; simpl; [constructor|].
  apply insert_by_sorted; auto.
  eapply Permutation_Forall; [symmetry; apply sort_by_perm|]. auto.
Qed.

Lemma seq_strongly_sorted a n : StronglySorted lt (seq a n).
Proof.
  revert a; induction n as [|n IH]; intros a; simpl; constructor; auto.
  apply Forall_forall. intros x Hx. apply in_seq in Hx. lia.
Qed.

Lemma StronglySorted_map {B C} (R : C -> C -> Prop) (f : B -> C) l :
  StronglySorted (fun x y => R (f x) (f y)) l <-> StronglySorted R (map f l).
Proof.
  split; induction l as [|x l IH]; simpl; intros H; constructor; inversion H; subst; auto.
  - now apply Forall_map.
  - rewrite Forall_map in H3. exact H3.
Qed.

(** ** shapes of subsets *)
Lemma Forall2_firstn {B C} (R : B -> C -> Prop) l m n :
  Forall2 R l m -> Forall2 R (firstn n l) (firstn n m).
Proof. intros H; revert n; induction H; intros [|n]; simpl; auto. Qed.
Lemma Forall2_skipn {B C} (R : B -> C -> Prop) l m n :
  Forall2 R l m -> Forall2 R (skipn n l) (skipn n m).
Proof. intros H; revert n; induction H; intros [|n]; simpl; auto. Qed.

Lemma get_subsets_shape {B C} (R : B -> C -> Prop) l m idx :
  Forall2 R l m -> Forall2 (Forall2 R) (get_subsets l idx) (get_subsets m idx).
Proof.
  intros H. induction idx as [|a [|b idx] IH]; simpl; auto.
  constructor; [|exact IH]. unfold slice. now apply Forall2_firstn, Forall2_skipn.
Qed.

Lemma Forall2_map_both {B C D E} (R : D -> E -> Prop) (f : B -> D) (g : C -> E) l m :
  Forall2 (fun x y => R (f x) (g y)) l m -> Forall2 R (map f l) (map g m).
Proof. induction 1; simpl; constructor; auto. Qed.

(** The full characterisation of pad_and_stack. *)
Lemma nth_length_ext {A} (a b : list (list A)) i :
  map (@length A) a = map (@length A) b -> length (nth i a []) = length (nth i b []).
Proof.
  intros H.
  change (length (nth i a [])) with ((@length A) (nth i a [])).
  rewrite <- !(map_nth (@length A)). now rewrite H.
Qed.

Lemma pad_and_stack_correct {A} jb (arrays : list (aseq A)) nb thr padded masks n :
  breaks_sorted jb ->
  aligned arrays ->
  (forall s, In s arrays -> length (items s) = n) ->
  pad_and_stack jb arrays nb thr = Some (padded, masks) ->
  exists order,
    Permutation order (seq 0 n) /\
    StronglySorted (size_order arrays) order /\
    Forall rectangular masks /\
    Forall2 (fun s data =>
               same_shape masks data /\
               unpad_buckets masks data = map (fun i => nth i (items s) []) order)
            arrays padded.
Proof.
  intros Hjb Hal Hn H. unfold pad_and_stack in H.
  destruct (negb _) in H; [discriminate|].
  destruct arrays as [|first others]; [discriminate|].
  set (arrays := first :: others) in *.
  destruct (negb _) eqn:Elen in H; [discriminate|].
  assert (Hfirst : In first arrays) by (left; auto).
  pose proof (Hn _ Hfirst) as Hnf. rewrite Hnf in H.
  destruct (n =? 0) eqn:En.
  { apply Nat.eqb_eq in En. subst n. injection H as <- <-.
    exists []. simpl. split; [auto|]. split; [constructor|]. split; [constructor|].
    change (Forall2 (fun (_ : aseq A) (data : list (list (list A))) =>
              same_shape ([] : list (list (list bool))) data /\ unpad_buckets [] data = [])
              arrays (map (fun _ => []) arrays)).
    clear. generalize arrays as arr. induction arr; simpl; constructor; auto.
    split; [constructor|reflexivity]. }
  apply Nat.eqb_neq in En.
  set (ias := sort_by snd (map (fun i => (i, event_size arrays i)) (seq 0 n))) in *.
  destruct (partition_data jb (map snd ias) nb thr) as [idx|] eqn:Ep; [|discriminate].
  injection H as <- <-.
  assert (Hperm : Permutation (map fst ias) (seq 0 n)).
  { unfold ias. rewrite sort_by_perm, map_map. simpl. now rewrite map_id. }
  assert (Hias : forall p, In p ias -> snd p = event_size arrays (fst p)).
  { intros p Hp. unfold ias in Hp. eapply Permutation_in in Hp; [|apply sort_by_perm].
    apply in_map_iff in Hp. destruct Hp as (i & <- & _). reflexivity. }
  assert (Hlen : length ias = n).
  { rewrite <- (map_length fst), (Permutation_length Hperm). apply seq_length. }
  exists (map fst ias). split; [auto|]. split.
  { apply (StronglySorted_map (size_order arrays) fst).
    assert (Hss : StronglySorted (lex snd fst) ias).
    { unfold ias. apply sort_by_sorted. apply (StronglySorted_map lt fst). rewrite map_map. simpl.
      rewrite map_id. apply seq_strongly_sorted. }
    clear - Hss Hias.
    induction Hss as [|p l Hs IH Hp]; constructor.
    - apply IH. intros; apply Hias; now right.
    - rewrite Forall_forall in *. intros q Hq. specialize (Hp q Hq).
      unfold lex in Hp. unfold size_order.
      rewrite <- (Hias p), <- (Hias q); auto; [now right | now left]. }
  assert (Hgood : good_indexes n idx).
  { rewrite <- Hlen, <- (map_length snd). eapply partition_data_good; eauto.
    intros E. apply (f_equal (@length nat)) in E. rewrite map_length, Hlen in E. simpl in E. lia. }
  split.
  { apply Forall_map, Forall_forall. intros b _. exists (bucket_width b). apply mask_rectangular. }
  assert (Hgen : forall arr, Forall (fun s => In s arrays) arr ->
    Forall2 (fun (s : aseq A) data =>
       same_shape (map bucket_mask (get_subsets
             (map (fun i => nth i (items first) []) (map fst ias)) idx)) data /\
       unpad_buckets (map bucket_mask (get_subsets
             (map (fun i => nth i (items first) []) (map fst ias)) idx)) data
       = map (fun i : nat => nth i (items s) []) (map fst ias)) arr
      (map (fun s => map (pad_and_stack_bucket (zero_row s))
             (get_subsets (map (fun i => nth i (items s) []) (map fst ias)) idx)) arr)).
  { induction arr as [|s arr IH]; intros Hall; simpl; constructor.
  - inversion Hall; subst.
    assert (Hsh : Forall2 (fun r t => length r = length t)
              (map (fun i => nth i (items first) []) (map fst ias))
              (map (fun i => nth i (items s) []) (map fst ias))).
    { apply Forall2_map_both.
      generalize (map fst ias) as l. induction l as [|i l IHl]; constructor; auto.
      apply nth_length_ext. apply Hal; auto. }
    apply (get_subsets_shape _ _ _ idx) in Hsh.
    split.
    + clear - Hsh. induction Hsh as [|a b x y Hab Hxy IH]; simpl; constructor; auto.
      now apply padded_shape.
    + rewrite unpad_buckets_pad by exact Hsh.
      apply good_subsets_concat. now rewrite !map_length, Hlen.
  - apply IH. now inversion Hall. }
  apply (Hgen arrays). apply Forall_forall; auto.
Qed.

(** ** automatic mode never fails *)
Lemma Sorted_last_max (l : list nat) d x : Sorted le l -> In x l -> x <= last l d.
Proof.
  intros H. apply Sorted_StronglySorted in H; [|intros a b c; lia].
  revert x. induction H as [|a l Hs IH Ha]; intros x Hx; [inversion Hx|].
  destruct l as [|b l]; [destruct Hx as [->|[]]; simpl; lia|].
  change (last (a :: b :: l) d) with (last (b :: l) d).
  destruct Hx as [->|Hx]; [|auto].
  inversion Ha; subst. specialize (IH b (or_introl eq_refl)). lia.
Qed.

Lemma searchsorted_last data d : Sorted le data -> searchsorted_right data (last data d) = length data.
Proof.
  intros H. unfold searchsorted_right.
  assert (Hall : forall x, In x data -> x <=? last data d = true).
  { intros x Hx. apply Nat.leb_le. now apply Sorted_last_max. }
  revert Hall. generalize (last data d) as m. clear. induction data as [|x data IH]; intros m Hm; simpl; auto.
  rewrite Hm by now left. simpl. rewrite IH; auto. intros; apply Hm; now right.
Qed.

Lemma nth_last {B} (l : list B) d : nth (length l - 1) l d = last l d.
Proof.
  induction l as [|a l IH]; auto. destruct l as [|b l]; auto.
  change (last (a :: b :: l) d) with (last (b :: l) d). rewrite <- IH.
  simpl. now rewrite Nat.sub_0_r.
Qed.

Lemma partition_one_bucket jb data :
  data <> [] -> Sorted le data ->
  exists q, partition_data_for_bucket jb data 1 = Some ([0; length data], q).
Proof.
  intros Hne Hs. unfold partition_data_for_bucket, jenks_natural_breaks.
  assert (Hl : 0 < length data) by (destruct data; simpl; [congruence|lia]).
  replace (length data <? 1) with false by (symmetry; apply Nat.ltb_ge; lia). simpl.
  unfold right_most_index. rewrite searchsorted_last by auto.
  replace (length data =? 0) with false by (symmetry; apply Nat.eqb_neq; lia).
  rewrite nth_last, Nat.eqb_refl. simpl.
  destruct (length data) as [|m] eqn:Em; [lia|].
  cbn [Nat.sub]. rewrite Nat.sub_0_r, Nat.eqb_refl. cbn. eauto.
Qed.

Lemma losses_from_some jb data : forall fuel n k,
  k < length (losses_from jb data n fuel) ->
  exists r, partition_data_for_bucket jb data (n + k) = Some r.
Proof.
  induction fuel as [|fuel IH]; simpl; intros n k H; [lia|].
  destruct (partition_data_for_bucket jb data n) as [[ix q]|] eqn:E; simpl in H; [|lia].
  destruct k as [|k]; [rewrite Nat.add_0_r; eauto|].
  replace (n + S k) with (S n + k) by lia. apply IH. lia.
Qed.

Lemma first_below_lt thr : forall ls i j, first_below ls thr i = Some j -> j + 1 < i + length ls.
Proof.
  induction ls as [|a [|b ls] IH]; simpl; intros i j H; try discriminate.
  destruct (negb _); [injection H as <-; lia|].
  apply IH in H. simpl in H. lia.
Qed.

Lemma partition_data_auto jb data thr :
  Sorted le data -> exists idx, partition_data jb data None thr = Some idx.
Proof.
  intros Hs. unfold partition_data. destruct data as [|d data]; [eauto|].
  set (dd := d :: data) in *.
  destruct (_ =? 1); [eauto|].
  destruct (length (losses_from jb dd 1 _) <=? 1) eqn:E; [eauto|].
  apply Nat.leb_gt in E.
  set (ls := losses_from jb dd 1 _) in *.
  destruct (first_below ls thr 0) as [i|] eqn:Ef.
  - apply first_below_lt in Ef.
    replace (i + 1 <? 1) with false by (symmetry; apply Nat.ltb_ge; lia).
    destruct (losses_from_some jb dd _ 1 i (ltac:(unfold ls in *; lia) : i < length ls)) as [r Hr].
    rewrite Nat.add_comm, Hr. simpl. eauto.
  - replace (length ls <? 1) with false by (symmetry; apply Nat.ltb_ge; lia).
    destruct (losses_from_some jb dd _ 1 (length ls - 1) (ltac:(unfold ls in *; lia) : length ls - 1 < length ls)) as [r Hr].
    replace (1 + (length ls - 1)) with (length ls) in Hr by lia.
    rewrite Hr. simpl. eauto.
Qed.

Lemma StronglySorted_impl {B} (R S : B -> B -> Prop) l :
  (forall x y, R x y -> S x y) -> StronglySorted R l -> StronglySorted S l.
Proof.
  intros H. induction 1; constructor; auto. eapply Forall_impl; [|eauto]. auto.
Qed.

Lemma pad_and_stack_auto_total {A} jb (arrays : list (aseq A)) thr n :
  arrays <> [] ->
  (forall s, In s arrays -> length (items s) = n) ->
  (0 <= thr)%Q -> (thr <= 100)%Q ->
  exists r, pad_and_stack jb arrays None thr = Some r.
Proof.
  intros Hne Hn H0 H1. unfold pad_and_stack.
  apply Qle_bool_iff in H0, H1. rewrite H0, H1. simpl.
  destruct arrays as [|first others]; [congruence|].
  set (arrays := first :: others) in *.
  assert (E : forallb (fun s => length (items first) =? length (items s)) arrays = true).
  { apply forallb_forall. intros s Hs. apply Nat.eqb_eq.
    rewrite (Hn s Hs). apply Hn. now left. }
  rewrite E. simpl.
  destruct (length (items first) =? 0); [eauto|].
  destruct (partition_data_auto jb
     (map snd (sort_by snd (map (fun i => (i, event_size arrays i)) (seq 0 (length (items first)))))) thr)
    as [idx Hidx].
  - apply StronglySorted_Sorted. apply (StronglySorted_map le snd).
    eapply StronglySorted_impl; [|apply (sort_by_sorted snd fst)].
    + intros x y [H|[H _]]; lia.
    + apply (StronglySorted_map lt fst). rewrite map_map. simpl. rewrite map_id. apply seq_strongly_sorted.
  - rewrite Hidx. eauto.
Qed.
