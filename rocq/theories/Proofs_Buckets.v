(** Lemmas on the number of buckets and the amount of padding. *)
From Coq Require Import List Bool Arith QArith Qfield Sorting.Sorted Permutation Lia.
From Verif Require Import Model_Jenks Spec_Jenks Proofs_Jenks Spec_Buckets.
Import ListNotations.
Open Scope nat_scope.

(** ** Distinct values *)

Lemma distinct_same : forall a b, (forall x, In x a <-> In x b) -> distinct a = distinct b.
Proof.
  assert (W : forall a b, (forall x, In x a -> In x b) -> distinct a <= distinct b).
  { intros a b H. unfold distinct. apply NoDup_incl_length; [apply NoDup_nodup|].
    intros x X. apply nodup_In. apply H. now apply nodup_In in X. }
  intros a b H. apply Nat.le_antisymm; apply W; intros x; apply H.
Qed.

Lemma distinct_map : forall f l, (forall x y, f x = f y -> x = y) -> distinct (map f l) = distinct l.
Proof.
  intros f l Hf. unfold distinct. induction l as [|a l IH]; [reflexivity|]. simpl.
  destruct (in_dec Nat.eq_dec a l) as [I|N]; destruct (in_dec Nat.eq_dec (f a) (map f l)) as [I'|N'].
  { exact IH. } { exfalso. apply N'. now apply in_map. }
  { exfalso. apply N. apply in_map_iff in I'. destruct I' as (y & E & Y). apply Hf in E. now subst. }
  { simpl. now rewrite IH. }
Qed.

Lemma distinct_pos : forall l, l <> [] -> 1 <= distinct l.
Proof.
  intros [|a l] H; [congruence|]. unfold distinct.
  assert (I : In a (nodup Nat.eq_dec (a :: l))) by (apply nodup_In; now left).
  destruct (nodup Nat.eq_dec (a :: l)); [contradiction|simpl; lia].
Qed.

Lemma distinct_le : forall l, distinct l <= length l.
Proof.
  intros l. unfold distinct. apply NoDup_incl_length; [apply NoDup_nodup|].
  intros x X. now apply nodup_In in X.
Qed.

(** ** Positions in sorted data *)

Lemma ss_spec : forall data v j, Sorted le data -> j < length data ->
  (nth j data 0 <= v <-> j < searchsorted_right data v).
Proof.
  intros data v. unfold searchsorted_right. induction data as [|d data IH]; intros j S L; [simpl in L; lia|].
  assert (Hd : forall x, In x data -> d <= x).
  { apply Sorted_StronglySorted in S; [|intros x y z; lia]. inversion S as [|? ? S' F]; subst.
    rewrite Forall_forall in F. exact F. }
  assert (S' : Sorted le data) by (now inversion S).
  cbn [filter]. destruct (Nat.leb_spec d v) as [Le|Gt].
  { destruct j as [|j]; cbn [nth length]; [lia|]. simpl in L. rewrite IH by (assumption || lia). lia. }
  assert (E : filter (fun x => x <=? v) data = []).
  { clear - Hd Gt. induction data as [|x data IH]; [reflexivity|]. simpl.
    assert (d <= x) by (apply Hd; now left). destruct (Nat.leb_spec x v); [lia|]. apply IH. intros; apply Hd; now right. }
  rewrite E. cbn [length]. split; [|lia]. intros H.
  destruct j as [|j]; cbn [nth] in H; [lia|]. simpl in L.
  assert (d <= nth j data 0) by (apply Hd, nth_In; lia). lia.
Qed.

Lemma ss_strict : forall data a b, Sorted le data -> In b data -> a < b ->
  searchsorted_right data a < searchsorted_right data b.
Proof.
  intros data a b S I L. apply In_nth with (d := 0) in I. destruct I as (j & J & E).
  assert (A : ~ j < searchsorted_right data a) by (rewrite <- ss_spec by assumption; lia).
  assert (B : j < searchsorted_right data b) by (rewrite <- ss_spec by assumption; lia). lia.
Qed.

Lemma right_most_some : forall data b, Sorted le data -> In b data ->
  right_most_index data b = Some (searchsorted_right data b - 1).
Proof.
  intros data b S I. unfold right_most_index. assert (I' := I).
  apply In_nth with (d := 0) in I. destruct I as (j & J & E).
  assert (B : j < searchsorted_right data b) by (rewrite <- ss_spec by assumption; lia).
  pose proof (searchsorted_le data b) as U.
  assert (E2 : nth (searchsorted_right data b - 1) data 0 = b).
  { apply Nat.le_antisymm; [apply ss_spec; [assumption|lia|lia]|].
    assert (M : forall i k, i <= k -> k < length data -> nth i data 0 <= nth k data 0).
    { intros i k Ik K. rewrite ss_spec by (assumption || lia).
      assert (k < searchsorted_right data (nth k data 0)) by (apply ss_spec; (assumption || lia)). lia. }
    rewrite <- E at 1. apply M; lia. }
  destruct (Nat.eqb_spec (searchsorted_right data b) 0); [lia|]. rewrite E2, Nat.eqb_refl. reflexivity.
Qed.

Lemma map_option_all : forall {B C} (f : B -> option C) (g : B -> C) l, (forall x, In x l -> f x = Some (g x)) ->
  map_option f l = Some (map g l).
Proof.
  induction l as [|x l IH]; intros H; [reflexivity|]. cbn [map_option map].
  rewrite (H x (or_introl eq_refl)), IH; [reflexivity|]. intros; apply H; now right.
Qed.

(** ** The indexes for [n] buckets *)

Definition ends (data bs : list nat) : list nat := 0 :: map (searchsorted_right data) bs.

Lemma natural_breaks : forall jb data n, classes jb -> Sorted le data -> 1 <= n <= distinct data ->
  exists bs, jenks_natural_breaks jb data n = Some (ends data bs) /\ length bs = n /\ StronglySorted lt bs /\
    (forall b, In b bs -> In b data) /\ last (ends data bs) 0 = length data.
Proof.
  intros jb data n Hjb Sd Hn. pose proof (distinct_le data) as DL.
  unfold jenks_natural_breaks.
  destruct (Nat.ltb_spec n 1); [lia|]. destruct (Nat.ltb_spec (length data) n); [lia|]. cbn [orb].
  assert (Hne : data <> []) by (intros ->; simpl in *; lia).
  assert (X : exists b0 bs, (if n =? 1 then Some [hd 0 data; last data 0] else jb data n) = Some (b0 :: bs) /\
    length bs = n /\ StronglySorted lt bs /\ (forall b, In b bs -> In b data) /\ (forall d, In d data -> d <= last bs 0)).
  { destruct (Nat.eqb_spec n 1) as [->|N1].
    { exists (hd 0 data), [last data 0]. split; [reflexivity|]. split; [reflexivity|]. split; [repeat constructor|].
      split. { intros b [<-|[]]. destruct data as [|a data]; [congruence|]. 
        rewrite <- (nth_last (a :: data) 0). apply nth_In. simpl. lia. }
      intros d I. simpl. now apply Sorted_last_max. }
    apply Hjb; [assumption|lia]. }
  destruct X as (b0 & bs & E & Lb & Sb & Ib & Mb). rewrite E. cbn [tl].
  rewrite (map_option_all _ (fun b => searchsorted_right data b - 1)) by (intros; now apply right_most_some; auto).
  assert (E1 : map S (map (fun b => searchsorted_right data b - 1) bs) = map (searchsorted_right data) bs).
  { rewrite map_map. apply map_ext_in. intros b I. specialize (Ib b I).
    assert (0 < searchsorted_right data b); [|lia].
    apply In_nth with (d := 0) in Ib. destruct Ib as (j & J & Ej).
    assert (j < searchsorted_right data b) by (rewrite <- ss_spec by assumption; lia). lia. }
  cbv zeta. rewrite E1. exists bs.
  assert (Lst : last (ends data bs) 0 = length data).
  { unfold ends. destruct bs as [|b bs']; [simpl in Lb; lia|].
    assert (Y : last (0 :: map (searchsorted_right data) (b :: bs')) 0 = searchsorted_right data (last (b :: bs') 0)).
    { clear. cbn [map]. rewrite last_cons_shift, last_cons_shift, last_cons_shift. 
      revert b. induction bs' as [|c bs' IH]; intros b; [reflexivity|]. cbn [map]. rewrite !last_cons_shift. apply IH. }
    rewrite Y. apply Nat.le_antisymm; [apply searchsorted_le|].
    destruct (length data) as [|m] eqn:Ld; [lia|].
    assert (m < searchsorted_right data (last (b :: bs') 0)); [|lia].
    apply ss_spec; [assumption|lia|]. apply Mb. apply nth_In. lia. }
  split. { fold (ends data bs). rewrite Lst, Nat.eqb_refl. reflexivity. }
  split; [exact Lb|]. split; [exact Sb|]. split; [exact Ib|exact Lst].
Qed.

Lemma get_subsets_length : forall {B} (l : list B) idx, length (get_subsets l idx) = length idx - 1.
Proof.
  intros B l. induction idx as [|a idx IH]; [reflexivity|]. destruct idx as [|b idx]; [reflexivity|].
  change (S (length (get_subsets l (b :: idx))) = length (a :: b :: idx) - 1). rewrite IH. simpl. lia.
Qed.

Lemma get_subsets_nth : forall {B} (l : list B) idx i, i < length idx - 1 ->
  nth i (get_subsets l idx) [] = slice l (nth i idx 0) (nth (S i) idx 0).
Proof.
  intros B l. induction idx as [|a idx IH]; intros i H; [simpl in H; lia|].
  destruct idx as [|b idx]; [simpl in H; lia|].
  change (nth i (slice l a b :: get_subsets l (b :: idx)) [] = slice l (nth i (a :: b :: idx) 0) (nth (S i) (a :: b :: idx) 0)).
  destruct i as [|i]; [reflexivity|]. cbn [nth]. rewrite IH by (simpl in *; lia). reflexivity.
Qed.

Lemma get_subsets_map : forall {B C} (f : B -> C) l idx, get_subsets (map f l) idx = map (map f) (get_subsets l idx).
Proof.
  intros B C f l. induction idx as [|a idx IH]; [reflexivity|]. destruct idx as [|b idx]; [reflexivity|].
  change (slice (map f l) a b :: get_subsets (map f l) (b :: idx) = map f (slice l a b) :: map (map f) (get_subsets l (b :: idx))).
  rewrite IH. f_equal. unfold slice. now rewrite skipn_map, firstn_map.
Qed.

Lemma in_slice : forall {B} (l : list B) a b x d, In x (slice l a b) -> exists j, a <= j < b /\ j < length l /\ nth j l d = x.
Proof.
  intros B l a b x d I. unfold slice in I. apply In_nth with (d := d) in I. destruct I as (k & K & E).
  rewrite firstn_length, skipn_length in K. exists (a + k). split; [lia|]. split; [lia|].
  rewrite <- E. clear E.
  assert (E1 : nth k (firstn (b - a) (skipn a l)) d = nth k (skipn a l) d).
  { rewrite <- (firstn_skipn (b - a) (skipn a l)) at 2. rewrite app_nth1; [reflexivity|].
    rewrite firstn_length, skipn_length. lia. }
  rewrite E1. clear. revert a. induction l as [|y l IH]; intros a; [rewrite skipn_nil; destruct (a + k), k; reflexivity|].
  destruct a as [|a]; [reflexivity|]. simpl. apply IH.
Qed.

Lemma slice_length : forall {B} (l : list B) a b, b <= length l -> length (slice l a b) = b - a.
Proof. intros. unfold slice. rewrite firstn_length, skipn_length. lia. Qed.

Lemma sorted_nth_lt : forall bs i j, StronglySorted lt bs -> i < j -> j < length bs -> nth i bs 0 < nth j bs 0.
Proof.
  induction bs as [|b bs IH]; intros i j S I J; [simpl in J; lia|].
  inversion S as [|? ? S' F]; subst. rewrite Forall_forall in F. destruct j as [|j]; [lia|]. simpl in J.
  destruct i as [|i]; cbn [nth]; [apply F, nth_In; lia|]. apply IH; (assumption || lia).
Qed.

Lemma nth_ends : forall data bs i, i < length bs -> nth (S i) (ends data bs) 0 = searchsorted_right data (nth i bs 0).
Proof.
  intros data bs i H. unfold ends. cbn [nth].
  rewrite (nth_indep _ 0 (searchsorted_right data 0)) by (now rewrite map_length). apply map_nth.
Qed.

Lemma subsets_nonempty : forall {B} (l : list B) data bs, length l = length data -> Sorted le data ->
  StronglySorted lt bs -> (forall b, In b bs -> In b data) ->
  forall s, In s (get_subsets l (ends data bs)) -> s <> [].
Proof.
  intros B l data bs Hl S Sb Ib s I. apply In_nth with (d := []) in I. destruct I as (i & L & E).
  rewrite get_subsets_length in L. unfold ends in L. cbn [length] in L. rewrite map_length in L.
  rewrite get_subsets_nth in E by (unfold ends; cbn [length]; rewrite map_length; lia).
  intros ->. apply (f_equal (@length B)) in E. rewrite nth_ends in E by lia.
  rewrite slice_length in E by (rewrite Hl; apply searchsorted_le). cbn [length] in E.
  assert (X : nth i (ends data bs) 0 < searchsorted_right data (nth i bs 0)).
  { destruct i as [|i].
    { cbn [nth ends]. assert (Y : In (nth 0 bs 0) data) by (apply Ib, nth_In; lia).
      apply In_nth with (d := 0) in Y. destruct Y as (j & J & Ej).
      assert (j < searchsorted_right data (nth 0 bs 0)) by (rewrite <- ss_spec by assumption; lia). unfold ends. cbn [nth]. lia. }
    rewrite nth_ends by lia. apply ss_strict; [assumption|apply Ib, nth_In; lia|]. apply sorted_nth_lt; (assumption || lia). }
  lia.
Qed.

Lemma subsets_apart : forall data bs, Sorted le data -> StronglySorted lt bs ->
  forall i j x y, i < j -> In x (nth i (get_subsets data (ends data bs)) []) -> In y (nth j (get_subsets data (ends data bs)) []) ->
  x < y.
Proof.
  intros data bs S Sb i j x y L X Y.
  assert (J : j < length bs).
  { destruct (Nat.lt_ge_cases j (length bs)) as [H|H]; [exact H|]. exfalso.
    rewrite nth_overflow in Y; [contradiction|]. rewrite get_subsets_length. unfold ends. cbn [length]. rewrite map_length. lia. }
  rewrite get_subsets_nth in X, Y by (unfold ends; cbn [length]; rewrite map_length; lia).
  apply in_slice with (d := 0) in X, Y. destruct X as (k & K & Kl & <-). destruct Y as (m & M & Ml & <-).
  rewrite nth_ends in K by lia. destruct j as [|j]; [lia|]. rewrite nth_ends in M by lia.
  assert (A : nth k data 0 <= nth i bs 0) by (apply ss_spec; (assumption || lia)).
  assert (B : ~ nth m data 0 <= nth j bs 0) by (rewrite ss_spec by assumption; lia).
  assert (nth i bs 0 <= nth j bs 0); [|lia].
  destruct (Nat.eq_dec i j) as [->|N]; [lia|]. apply Nat.lt_le_incl, sorted_nth_lt; (assumption || lia).
Qed.

(** ** Padding *)

Lemma max_list_scale : forall R l, max_list (map (Nat.mul R) l) = R * max_list l.
Proof. intros R. induction l as [|x l IH]; simpl; [lia|]. unfold max_list in *. rewrite IH. apply Nat.mul_max_distr_l. Qed.

Lemma sum_list_scale : forall R l, sum_list (map (Nat.mul R) l) = R * sum_list l.
Proof. intros R. induction l as [|x l IH]; simpl; [lia|]. unfold sum_list in *. rewrite IH. lia. Qed.

Lemma sum_list_cons : forall a l, sum_list (a :: l) = a + sum_list l.
Proof. reflexivity. Qed.

Lemma max_list_in : forall l, l <> [] -> In (max_list l) l.
Proof.
  induction l as [|x l IH]; [congruence|]. intros _. unfold max_list in *. simpl.
  destruct l as [|y l]; [left; simpl; lia|]. 
  destruct (Nat.max_spec x (fold_right Nat.max 0 (y :: l))) as [[_ ->]|[_ ->]]; [right; apply IH; discriminate|now left].
Qed.

Lemma filter_repeat_true : forall (f : bool -> bool) k b, length (filter f (repeat b k)) = if f b then k else 0.
Proof. intros f k b. induction k; simpl; [now destruct (f b)|]. destruct (f b); simpl; lia. Qed.

Lemma mask_cells : forall {A} (b : list (list A)),
  list_sum (map (@length bool) (bucket_mask b)) = length b * bucket_width b /\
  list_sum (map (fun r => length (filter negb r)) (bucket_mask b)) + sum_list (map (@length A) b) = length b * bucket_width b.
Proof.
  intros A b. unfold bucket_mask. rewrite !map_map.
  assert (G : forall w l, (forall x, In x l -> @length A x <= w) ->
    list_sum (map (fun x => length (repeat true (length x) ++ repeat false (w - length x))) l) = length l * w /\
    list_sum (map (fun x => length (filter negb (repeat true (length x) ++ repeat false (w - length x)))) l)
      + sum_list (map (@length A) l) = length l * w).
  { intros w. induction l as [|x l IH]; intros H; [now split|].
    destruct IH as [I1 I2]. { intros; apply H; now right. } specialize (H x (or_introl eq_refl)).
    cbn [map list_sum fold_right length]. unfold sum_list in *. cbn [fold_right].
    change (fold_right Nat.add 0 ?m) with (list_sum m) in *.
    rewrite filter_app, !app_length, !repeat_length, !filter_repeat_true in *. cbn [negb] in *. split; lia. }
  apply G. intros x X. unfold bucket_width. apply max_list_ge. now apply in_map.
Qed.

Lemma total_loss_share : forall {A} R (subs : list (list (list A))), 0 < R ->
  (total_loss (map (map (Nat.mul R)) (map (map (@length A)) subs)) == padded_share (map bucket_mask subs))%Q.
Proof.
  intros A R subs HR.
  set (sizes := map (map (Nat.mul R)) (map (map (@length A)) subs)).
  assert (Sp : sum_list (map (fun s => length s * max_list s) (filter nonempty sizes)) = R * cells (map bucket_mask subs) /\
     sum_list (map sum_list (filter nonempty sizes)) + R * holes (map bucket_mask subs) = R * cells (map bucket_mask subs)).
  { unfold sizes, cells, holes. rewrite !map_map. clear sizes. induction subs as [|b subs IH]; [simpl; lia|].
    destruct IH as [I1 I2]. destruct (mask_cells b) as [C1 C2]. unfold bucket_width in *.
    cbn [map list_sum fold_right] in *. change (fold_right Nat.add 0 ?m) with (list_sum m) in *.
    destruct b as [|e b]; [simpl in *; lia|].
    set (lens := map (@length A) (e :: b)) in *.
    assert (Ne : nonempty (map (Nat.mul R) lens) = true) by reflexivity.
    cbn [filter]. rewrite Ne. cbn [map]. rewrite !sum_list_cons.
    rewrite map_length, max_list_scale, sum_list_scale. 
    assert (Ll : length lens = length (e :: b)) by (unfold lens; now rewrite map_length). rewrite Ll. rewrite C1.
    rewrite I1. split; [lia|]. nia. }
  destruct Sp as [S1 S2]. unfold total_loss. rewrite S1.
  set (used := sum_list (map sum_list (filter nonempty sizes))) in *. clearbody used. clear S1 sizes.
  unfold padded_share. set (c := cells _) in *. set (h := holes _) in *. clearbody c h.
  destruct (Nat.eqb_spec c 0) as [->|Nc].
  { rewrite Nat.mul_0_r. reflexivity. }
  destruct (Nat.eqb_spec (R * c) 0) as [Z|_]; [nia|].
  unfold qnat. assert (E : used = R * c - R * h) by lia.
  assert (Hh : h <= c) by nia.
  rewrite E, <- Nat.mul_sub_distr_l. rewrite !Nat2Z.inj_mul, Nat2Z.inj_sub by exact Hh. unfold Z.sub.
  rewrite !inject_Z_mult, inject_Z_plus, inject_Z_opp. field. split.
  { intros X. apply Nc. unfold Qeq in X. simpl in X. lia. }
  intros X. unfold Qeq in X. simpl in X. lia.
Qed.

(** ** pad_and_stack opened *)

Section Opened.

Context {A : Type}.
Variable first : aseq A.
Variable others : list (aseq A).
Notation arrays := (first :: others).
Variable n : nat.
Hypothesis Hn : forall s, In s arrays -> length (items s) = n.
Hypothesis Hpos : 0 < n.
Hypothesis Hal : aligned arrays.
Hypothesis Hel : has_elements arrays.

Definition pairs : list (nat * nat) := sort_by snd (map (fun i => (i, event_size arrays i)) (seq 0 n)).
Definition sizes : list nat := map snd pairs.
Definition lens : list nat := map (fun i => nth i (event_rows arrays) 0) (map fst pairs).
Definition width : nat := sum_list (map row_size arrays).

Lemma width_pos : 0 < width.
Proof.
  destruct Hel as (s & I & P). unfold width. clear - I P. induction arrays as [|a l IH]; [contradiction|].
  unfold sum_list in *. simpl. destruct I as [->|I]; [lia|]. specialize (IH I). lia.
Qed.

Lemma pairs_perm : Permutation pairs (map (fun i => (i, event_size arrays i)) (seq 0 n)).
Proof. apply sort_by_perm. Qed.

Lemma rows_nth : forall s i, In s arrays -> length (nth i (items s) []) = nth i (event_rows arrays) 0.
Proof.
  intros s i I. unfold event_rows.
  rewrite <- (Hal s first I (or_introl eq_refl)). change 0 with (length (@nil A)). symmetry. apply map_nth.
Qed.

Lemma event_size_rows : forall i, event_size arrays i = width * nth i (event_rows arrays) 0.
Proof.
  intros i. unfold event_size, width.
  assert (G : forall l, (forall s, In s l -> In s arrays) ->
    sum_list (map (fun s => row_size s * length (nth i (items s) [])) l) = sum_list (map row_size l) * nth i (event_rows arrays) 0).
  { induction l as [|s l IH]; intros H; [reflexivity|]. unfold sum_list in *. cbn [map fold_right].
    rewrite IH by (intros; apply H; now right). rewrite (rows_nth s i) by (apply H; now left). lia. }
  apply G. auto.
Qed.

Lemma sizes_lens : sizes = map (Nat.mul width) lens.
Proof.
  unfold sizes, lens. rewrite !map_map. apply map_ext_in. intros [i z] I. cbn [snd fst].
  eapply Permutation_in in I; [|apply pairs_perm]. apply in_map_iff in I. destruct I as (j & E & _).
  injection E as <- <-. apply event_size_rows.
Qed.

Lemma sizes_sorted : Sorted le sizes.
Proof.
  unfold sizes, pairs. apply StronglySorted_Sorted. apply (StronglySorted_map le snd).
  eapply StronglySorted_impl; [|apply (sort_by_sorted snd fst)].
  { intros x y [H|[H _]]; lia. }
  apply (StronglySorted_map lt fst). rewrite map_map. simpl. rewrite map_id. apply seq_strongly_sorted.
Qed.

Lemma rows_length : length (event_rows arrays) = n.
Proof. unfold event_rows. rewrite map_length. apply Hn. now left. Qed.

Lemma pairs_length : length pairs = n.
Proof. rewrite (Permutation_length pairs_perm), map_length, seq_length. reflexivity. Qed.

Lemma sizes_distinct : distinct sizes = distinct (event_rows arrays).
Proof.
  rewrite sizes_lens, distinct_map by (intros x y H; pose proof width_pos; nia).
  apply distinct_same. intros x. unfold lens. rewrite !map_map. split.
  { intros I. apply in_map_iff in I. destruct I as ([i z] & <- & I). cbn [fst].
    eapply Permutation_in in I; [|apply pairs_perm]. apply in_map_iff in I. destruct I as (j & E & J).
    injection E as <- _. apply in_seq in J. apply nth_In. rewrite rows_length. lia. }
  intros I. apply In_nth with (d := 0) in I. destruct I as (j & J & <-). rewrite rows_length in J.
  apply in_map_iff. exists (j, event_size arrays j). split; [reflexivity|].
  eapply Permutation_in; [apply Permutation_sym, pairs_perm|]. apply in_map_iff. exists j. split; [reflexivity|]. apply in_seq. lia.
Qed.

Definition first_rows : list (list A) := map (fun i => nth i (items first) []) (map fst pairs).

Lemma first_rows_lens : map (@length A) first_rows = lens.
Proof.
  unfold first_rows, lens. rewrite map_map. apply map_ext. intros i. apply rows_nth. now left.
Qed.

Lemma first_rows_length : length first_rows = length sizes.
Proof. unfold first_rows, sizes. now rewrite !map_length. Qed.

Variable jb : list nat -> nat -> option (list nat).
Variable thr : Q.
Hypothesis Hthr : (0 <= thr)%Q /\ (thr <= 100)%Q.

Lemma opened : forall nb, exists f : list nat -> list (list (list (list A))),
  pad_and_stack jb arrays nb thr =
  match partition_data jb sizes nb thr with
  | None => None
  | Some idx => Some (f idx, map bucket_mask (get_subsets first_rows idx))
  end.
Proof.
  intros nb. unfold pad_and_stack. destruct Hthr as [H0 H1]. apply Qle_bool_iff in H0, H1. rewrite H0, H1. cbn [andb negb].
  assert (E : forallb (fun s => length (items first) =? length (items s)) arrays = true).
  { apply forallb_forall. intros s Hs. apply Nat.eqb_eq. rewrite (Hn s Hs). apply Hn. now left. }
  rewrite E. cbn [negb]. rewrite (Hn first (or_introl eq_refl)).
  destruct (Nat.eqb_spec n 0); [lia|].
  exists (fun idx => map (fun s => map (pad_and_stack_bucket (zero_row s))
     (get_subsets (map (fun i => nth i (items s) []) (map fst pairs)) idx)) arrays).
  reflexivity.
Qed.

Hypothesis Hjb : classes jb.
Notation k := (distinct (event_rows arrays)).

Lemma sizes_ne : sizes <> [].
Proof. intros E. apply (f_equal (@length nat)) in E. unfold sizes in E. rewrite map_length, pairs_length in E. simpl in E. lia. Qed.

Lemma k_pos : 1 <= k.
Proof. rewrite <- sizes_distinct. apply distinct_pos, sizes_ne. Qed.

Lemma for_bucket : forall m, 1 <= m <= k -> exists bs,
  partition_data_for_bucket jb sizes m = Some (ends sizes bs, total_loss (get_subsets sizes (ends sizes bs))) /\
  length bs = m /\ StronglySorted lt bs /\ (forall b, In b bs -> In b sizes).
Proof.
  intros m Hm. destruct (natural_breaks jb sizes m Hjb sizes_sorted) as (bs & E & L & S & I & _).
  { rewrite sizes_distinct. exact Hm. }
  exists bs. unfold partition_data_for_bucket. rewrite E. 
  pose proof (get_subsets_length sizes (ends sizes bs)) as G. unfold ends in G at 2. cbn [length] in G. rewrite map_length, L in G.
  destruct (get_subsets sizes (ends sizes bs)) as [|x y] eqn:Es; [simpl in G; lia|].
  split; [reflexivity|]. split; [exact L|]. split; assumption.
Qed.

Lemma part_some : forall m, 1 <= m -> exists bs,
  partition_data jb sizes (Some m) thr = Some (ends sizes bs) /\ length bs = Nat.min m k /\
  StronglySorted lt bs /\ (forall b, In b bs -> In b sizes) /\
  partition_data_for_bucket jb sizes (Nat.min m k) = Some (ends sizes bs, total_loss (get_subsets sizes (ends sizes bs))).
Proof.
  intros m Hm. pose proof k_pos as K. pose proof sizes_distinct as D. unfold partition_data.
  destruct sizes as [|z zs] eqn:Es; [now apply sizes_ne in Es|]. rewrite <- Es in *.
  change (length (nodup Nat.eq_dec sizes)) with (distinct sizes). rewrite D.
  destruct (for_bucket (Nat.min m k)) as (bs & E & L & S & I); [lia|].
  exists bs. destruct (Nat.eqb_spec k 1) as [K1|K1].
  { split; [|now repeat (split; [assumption|])].
    destruct (natural_breaks jb sizes 1 Hjb sizes_sorted) as (bs' & E' & L' & _ & _ & La); [lia|].
    rewrite K1 in E. replace (Nat.min m 1) with 1 in E by lia. unfold partition_data_for_bucket in E. rewrite E' in E.
    destruct (get_subsets sizes (ends sizes bs')); [discriminate|]. assert (Ee : ends sizes bs' = ends sizes bs) by congruence. rewrite Ee in La.
    rewrite K1 in L. replace (Nat.min m 1) with 1 in L by lia.
    destruct bs as [|b [|]]; [simpl in L; lia| |simpl in L; lia]. unfold ends in *. simpl in La. cbn [map]. now rewrite La. }
  assert (M : (if k <? m then k else m) = Nat.min m k) by (destruct (Nat.ltb_spec k m); lia).
  cbv zeta. rewrite M, E. cbn [option_map fst]. now repeat (split; [first [assumption|reflexivity]|]).
Qed.

Lemma loss_share : forall idx,
  (total_loss (get_subsets sizes idx) == padded_share (map bucket_mask (get_subsets first_rows idx)))%Q.
Proof.
  intros idx.
  assert (E : get_subsets sizes idx = map (map (Nat.mul width)) (map (map (@length A)) (get_subsets first_rows idx))).
  { rewrite <- !get_subsets_map. f_equal. rewrite first_rows_lens. apply sizes_lens. }
  rewrite E. apply total_loss_share, width_pos.
Qed.

Lemma masks_some : forall m, 1 <= m -> exists padded bs,
  let masks := map bucket_mask (get_subsets first_rows (ends sizes bs)) in
  pad_and_stack jb arrays (Some m) thr = Some (padded, masks) /\
  length bs = Nat.min m k /\ StronglySorted lt bs /\ (forall b, In b bs -> In b sizes) /\
  (exists q, partition_data_for_bucket jb sizes (Nat.min m k) = Some (ends sizes bs, q) /\ q == padded_share masks)%Q.
Proof.
  intros m Hm. destruct (part_some m Hm) as (bs & E & L & S & I & P). destruct (opened (Some m)) as (f & O).
  exists (f (ends sizes bs)), bs. cbv zeta. rewrite O, E. split; [reflexivity|]. split; [exact L|]. split; [exact S|]. split; [exact I|].
  eexists. split; [exact P|]. apply loss_share.
Qed.

Lemma rows_in_mask : forall (b : list (list A)) r, In r (bucket_mask b) -> exists x, In x b /\ rows_in r = length x.
Proof.
  intros b r I. unfold bucket_mask in I. apply in_map_iff in I. destruct I as (x & <- & I). exists x. split; [exact I|].
  unfold rows_in. rewrite filter_app, app_length, !filter_repeat_true. lia.
Qed.

Lemma masks_apart : forall bs, StronglySorted lt bs -> 
  let masks := map bucket_mask (get_subsets first_rows (ends sizes bs)) in
  forall i j r s, i < j -> In r (nth i masks []) -> In s (nth j masks []) -> rows_in r < rows_in s.
Proof.
  intros bs S masks i j r s L Ir Is. unfold masks in *.
  change (@nil (list bool)) with (bucket_mask (@nil (list A))) in Ir, Is. rewrite map_nth in Ir, Is.
  apply rows_in_mask in Ir, Is. destruct Ir as (x & X & ->). destruct Is as (y & Y & ->).
  assert (G : forall i x, In x (nth i (get_subsets first_rows (ends sizes bs)) []) ->
     In (width * length x) (nth i (get_subsets sizes (ends sizes bs)) [])).
  { clear i x L X. intros i x X. generalize (ends sizes bs) X. clear X. intros idx X.
    assert (E : get_subsets sizes idx = map (map (Nat.mul width)) (map (map (@length A)) (get_subsets first_rows idx))).
    { rewrite <- !get_subsets_map. f_equal. rewrite first_rows_lens. apply sizes_lens. }
    rewrite E. change (@nil nat) with (map (Nat.mul width) (map (@length A) (@nil (list A)))). rewrite !map_nth.
    apply in_map, in_map. exact X. }
  pose proof (subsets_apart sizes bs sizes_sorted S i j _ _ L (G i x X) (G j y Y)). nia.
Qed.

(** ** The automatic number *)

Definition loss_at (m : nat) : Q :=
  match partition_data_for_bucket jb sizes m with Some (_, l) => l | None => 0%Q end.

Lemma losses_all : forall fuel m, 1 <= m -> m + fuel <= S k -> losses_from jb sizes m fuel = map loss_at (seq m fuel).
Proof.
  induction fuel as [|fuel IH]; intros m Hm Hk; [reflexivity|]. cbn [losses_from seq map]. unfold loss_at at 1.
  destruct (for_bucket m) as (bs & E & _); [lia|]. rewrite E. f_equal. apply IH; lia.
Qed.

Lemma first_below_spec : forall t f c a i,
  match first_below (map f (seq a c)) t i with
  | Some j => exists d, j = i + d /\ S d < c /\ (f (a + d)%nat - f (S (a + d)%nat) < t)%Q /\
      (forall e, e < d -> (t <= f (a + e)%nat - f (S (a + e)%nat))%Q)
  | None => forall e, S e < c -> (t <= f (a + e)%nat - f (S (a + e)%nat))%Q
  end.
Proof.
  intros t f. induction c as [|c IH]; intros a i; [simpl; lia|].
  destruct c as [|c]; [simpl; lia|].
  change (map f (seq a (S (S c)))) with (f a :: map f (seq (S a) (S c))).
  change (first_below (f a :: map f (seq (S a) (S c))) t i)
    with (if negb (Qle_bool t (f a - f (S a))) then Some i else first_below (map f (seq (S a) (S c))) t (S i)).
  destruct (Qle_bool t (f a - f (S a))) eqn:Q; cbn [negb].
  { apply Qle_bool_iff in Q. specialize (IH (S a) (S i)).
    destruct (first_below (map f (seq (S a) (S c))) t (S i)) as [j|].
    { destruct IH as (d & -> & D & L & B). exists (S d). split; [lia|]. split; [lia|].
      replace (a + S d) with (S a + d) by lia. split; [exact L|].
      intros [|e] He; [now rewrite Nat.add_0_r|]. replace (a + S e) with (S a + e) by lia. apply B. lia. }
    intros [|e] He; [now rewrite Nat.add_0_r|]. replace (a + S e) with (S a + e) by lia. apply IH. lia. }
  exists 0. rewrite Nat.add_0_r, Nat.add_0_r. split; [reflexivity|]. split; [lia|]. split; [|intros; lia].
  apply Qnot_le_lt. intros X. apply Qle_bool_iff in X. congruence.
Qed.

Lemma automatic : exists m, 1 <= m <= k /\
  partition_data jb sizes None thr = partition_data jb sizes (Some m) thr /\
  (forall e, 1 <= e < m -> (thr <= loss_at e - loss_at (S e))%Q) /\
  (m < k -> (loss_at m - loss_at (S m) < thr)%Q).
Proof.
  pose proof k_pos as K. pose proof sizes_distinct as D. unfold partition_data.
  destruct sizes as [|z zs] eqn:Es; [now apply sizes_ne in Es|]. rewrite <- Es in *.
  change (length (nodup Nat.eq_dec sizes)) with (distinct sizes). rewrite D.
  destruct (Nat.eqb_spec k 1) as [K1|K1].
  { exists 1. split; [lia|]. split; [reflexivity|]. split; intros; lia. }
  cbv zeta. rewrite losses_all by lia. rewrite map_length, seq_length.
  destruct (Nat.leb_spec k 1); [lia|].
  pose proof (first_below_spec thr loss_at k 1 0) as F.
  destruct (first_below (map loss_at (seq 1 k)) thr 0) as [j|].
  { destruct F as (d & -> & Dk & L & B). exists (S d). replace (0 + d + 1) with (S d) by lia.
    destruct (Nat.ltb_spec (S d) 1); [lia|]. destruct (Nat.ltb_spec k (S d)); [lia|].
    split; [lia|]. split; [reflexivity|]. split; [|intros _; exact L].
    intros [|e] He; [lia|]. apply (B e). lia. }
  exists k. destruct (Nat.ltb_spec k 1); [lia|]. destruct (Nat.ltb_spec k k); [lia|].
  split; [lia|]. split; [reflexivity|]. split; [|intros; lia].
  intros [|e] He; [lia|]. apply (F e). lia.
Qed.

End Opened.
