(** C136: how many buckets there are and how much of them is padding. *)
From Coq Require Import List Bool Arith QArith Sorting.Sorted Lia.
From Verif Require Import Model_Jenks Spec_Jenks Proofs_Jenks Spec_Buckets Proofs_Buckets.
Import ListNotations.
Open Scope nat_scope.

(** A bucket is as wide as its longest event: some event of it has no padding.  Nothing is
    assumed of jenkspy. *)
Theorem C136_width : forall A jb (arrays : list (aseq A)) nb thr padded masks bucket,
  pad_and_stack jb arrays nb thr = Some (padded, masks) -> In bucket masks -> bucket <> [] ->
  exists mask, In mask bucket /\ (forall k, In k mask -> k = true) /\
    forall other, In other bucket -> length other = length mask.
Proof.
  intros A jb arrays nb thr padded masks bucket H I Hb.
  assert (X : exists b : list (list A), bucket = bucket_mask b).
  { unfold pad_and_stack in H. destruct (negb _); [discriminate|]. destruct arrays as [|f o]; [discriminate|].
    destruct (negb _); [discriminate|]. destruct (_ =? 0). { injection H as _ <-. contradiction. }
    destruct (partition_data jb _ nb thr) as [idx|]; [|discriminate]. injection H as _ <-.
    apply in_map_iff in I. destruct I as (b & <- & _). now exists b. }
  destruct X as (b & ->). assert (Hb' : b <> []) by (intros ->; now apply Hb).
  assert (M : In (bucket_width b) (map (@length A) b)).
  { apply max_list_in. destruct b; [congruence|discriminate]. }
  apply in_map_iff in M. destruct M as (x & E & X).
  assert (Le : forall y, In y b -> length y <= bucket_width b).
  { intros y Y. unfold bucket_width. apply max_list_ge. now apply in_map. }
  exists (repeat true (length x) ++ repeat false (bucket_width b - length x)). split; [|split].
  { unfold bucket_mask. apply in_map_iff. exists x. now split. }
  { intros k K. rewrite E, Nat.sub_diag, app_nil_r in K. now apply repeat_spec in K. }
  intros other O. unfold bucket_mask in O. apply in_map_iff in O. destruct O as (y & <- & Y).
  specialize (Le y Y). rewrite !app_length, !repeat_length. lia.
Qed.
Print Assumptions C136_width.

(** A number of buckets asked for is the number there is, or the number of different lengths of
    events if that is smaller; no bucket is empty; events of an earlier bucket are shorter than
    those of a later one, so that events of one length are never parted. *)
Theorem C136_number : forall A jb (arrays : list (aseq A)) n thr m,
  classes jb -> arrays <> [] -> (forall s, In s arrays -> length (items s) = n) -> 0 < n ->
  aligned arrays -> has_elements arrays -> (0 <= thr)%Q -> (thr <= 100)%Q -> 1 <= m ->
  exists padded masks,
    pad_and_stack jb arrays (Some m) thr = Some (padded, masks) /\
    length masks = Nat.min m (distinct (event_rows arrays)) /\
    (forall bucket, In bucket masks -> bucket <> []) /\
    (forall i j r s, i < j -> In r (nth i masks []) -> In s (nth j masks []) -> rows_in r < rows_in s).
Proof.
  intros A jb arrays n thr m Hjb Hne Hn Hpos Hal Hel H0 H1 Hm.
  destruct arrays as [|first others]; [congruence|].
  destruct (masks_some first others n Hn Hpos Hal Hel jb thr (conj H0 H1) Hjb m Hm) as (padded & bs & E & L & S & I & _).
  exists padded. eexists. split; [exact E|]. split.
  { rewrite map_length, get_subsets_length. unfold ends. cbn [length]. rewrite map_length, L. lia. }
  split.
  { intros bucket B. apply in_map_iff in B. destruct B as (b & <- & B).
    assert (Bn : b <> []).
    { exact (subsets_nonempty (first_rows first others n) (sizes first others n) bs
        (first_rows_length first others n) (sizes_sorted first others n Hpos) S I b B). }
    intros X. apply Bn. unfold bucket_mask in X. now apply map_eq_nil in X. }
  exact (masks_apart first others n Hpos Hal bs S).
Qed.
Print Assumptions C136_number.

(** No buckets at all are refused, unless all events have one length: then there is one bucket. *)
Theorem C136_none : forall A jb (arrays : list (aseq A)) n thr,
  arrays <> [] -> (forall s, In s arrays -> length (items s) = n) -> 0 < n ->
  aligned arrays -> has_elements arrays -> (0 <= thr)%Q -> (thr <= 100)%Q ->
  (pad_and_stack jb arrays (Some 0) thr = None <-> distinct (event_rows arrays) <> 1).
Proof.
  intros A jb arrays n thr Hne Hn Hpos Hal Hel H0 H1.
  destruct arrays as [|first others]; [congruence|].
  destruct (opened first others n Hn Hpos jb thr (conj H0 H1) (Some 0)) as (f & O). rewrite O.
  pose proof (sizes_distinct first others n Hn Hpos Hal Hel) as D. rewrite <- D.
  pose proof (sizes_ne first others n Hpos) as Ne. unfold partition_data.
  destruct (sizes first others n) as [|z zs] eqn:Es; [congruence|]. rewrite <- Es in *.
  change (length (nodup Nat.eq_dec (sizes first others n))) with (distinct (sizes first others n)).
  destruct (Nat.eqb_spec (distinct (sizes first others n)) 1) as [E|E].
  { split; [discriminate|]. congruence. }
  cbv zeta. destruct (Nat.ltb_spec (distinct (sizes first others n)) 0); [lia|]. 
  unfold partition_data_for_bucket, jenks_natural_breaks. cbn [Nat.ltb Nat.leb orb option_map]. split; [intros _; exact E|reflexivity].
Qed.
Print Assumptions C136_none.

(** Left to itself it takes the first number of buckets for which one more bucket would lower
    the share of the padding by less than the threshold, and one bucket per length if there is
    none. *)
Theorem C136_automatic : forall A jb (arrays : list (aseq A)) n thr,
  classes jb -> arrays <> [] -> (forall s, In s arrays -> length (items s) = n) -> 0 < n ->
  aligned arrays -> has_elements arrays -> (0 <= thr)%Q -> (thr <= 100)%Q ->
  exists m, 1 <= m <= distinct (event_rows arrays) /\
    pad_and_stack jb arrays None thr = pad_and_stack jb arrays (Some m) thr /\
    (forall e p q masks masks', 1 <= e < m ->
       pad_and_stack jb arrays (Some e) thr = Some (p, masks) ->
       pad_and_stack jb arrays (Some (S e)) thr = Some (q, masks') ->
       (thr <= padded_share masks - padded_share masks')%Q) /\
    (m < distinct (event_rows arrays) -> forall p q masks masks',
       pad_and_stack jb arrays (Some m) thr = Some (p, masks) ->
       pad_and_stack jb arrays (Some (S m)) thr = Some (q, masks') ->
       (padded_share masks - padded_share masks' < thr)%Q).
Proof.
  intros A jb arrays n thr Hjb Hne Hn Hpos Hal Hel H0 H1.
  destruct arrays as [|first others]; [congruence|].
  destruct (automatic first others n Hn Hpos Hal Hel jb thr Hjb) as (m & Hm & E & B & C).
  assert (Sh : forall e p masks, 1 <= e <= distinct (event_rows (first :: others)) ->
    pad_and_stack jb (first :: others) (Some e) thr = Some (p, masks) ->
    (padded_share masks == loss_at first others n jb e)%Q).
  { intros e p masks He X.
    destruct (masks_some first others n Hn Hpos Hal Hel jb thr (conj H0 H1) Hjb e (proj1 He)) as (padded & bs & E' & _ & _ & _ & q & P & Q).
    cbv zeta in E'. rewrite X in E'. injection E' as _ ->. rewrite <- Q. unfold loss_at.
    replace (Nat.min e (distinct (event_rows (first :: others)))) with e in P by lia. rewrite P. reflexivity. }
  exists m. split; [exact Hm|]. split; [|split].
  { destruct (opened first others n Hn Hpos jb thr (conj H0 H1) None) as (f & O).
    destruct (opened first others n Hn Hpos jb thr (conj H0 H1) (Some m)) as (g & O').
    unfold pad_and_stack in *. destruct (negb (Qle_bool 0 thr && Qle_bool thr 100)); [reflexivity|].
    destruct (negb (forallb _ _)); [reflexivity|]. destruct (length (items first) =? 0); [reflexivity|].
    cbv zeta. rewrite (Hn first (or_introl eq_refl)).
    change (map snd (sort_by snd (map (fun i => (i, event_size (first :: others) i)) (seq 0 n)))) with (sizes first others n).
    rewrite E. reflexivity. }
  { intros e p q masks masks' He X Y. rewrite (Sh e p masks), (Sh (S e) q masks') by (assumption || lia). apply B. exact He. }
  intros L p q masks masks' X Y. rewrite (Sh m p masks), (Sh (S m) q masks') by (assumption || lia). apply C. exact L.
Qed.
Print Assumptions C136_automatic.

(** A library that meets the assumption: the largest [n] different values. *)
Definition largest (data : list nat) (n : nat) : option (list nat) :=
  Some (hd 0 data :: skipn (distinct data - n) (nodup Nat.eq_dec data)).

Lemma nodup_sorted : forall data, Sorted le data -> StronglySorted lt (nodup Nat.eq_dec data).
Proof.
  intros data S. apply Sorted_StronglySorted in S; [|intros x y z; lia].
  induction S as [|a l S IH F]; [constructor|]. simpl. destruct (in_dec Nat.eq_dec a l) as [I|N]; [exact IH|].
  constructor; [exact IH|]. rewrite Forall_forall in *. intros x X. apply nodup_In in X. specialize (F x X).
  assert (x <> a) by (intros ->; contradiction). lia.
Qed.

Lemma skipn_sorted : forall k (l : list nat), StronglySorted lt l -> StronglySorted lt (skipn k l).
Proof. induction k; intros l S; [exact S|]. destruct S; [constructor|]. simpl. now apply IHk. Qed.

Lemma last_skipn : forall k (l : list nat), k < length l -> last (skipn k l) 0 = last l 0.
Proof.
  induction k; intros l H; [reflexivity|]. destruct l as [|a l]; [simpl in H; lia|]. simpl (skipn (S k) (a :: l)). simpl in H.
  rewrite IHk by lia. destruct l; [simpl in H; lia|reflexivity].
Qed.

Lemma largest_classes : classes largest.
Proof.
  intros data n S Hn. unfold largest, distinct in *. set (u := nodup Nat.eq_dec data) in *.
  eexists _, _. split; [reflexivity|]. split; [rewrite skipn_length; lia|]. split; [now apply skipn_sorted, nodup_sorted|].
  split. { intros b B. apply (nodup_In Nat.eq_dec). rewrite <- (firstn_skipn (length u - n) u) in *. fold u.
    rewrite <- (firstn_skipn (length u - n) u). apply in_or_app. right. 
    rewrite firstn_skipn in B. exact B. }
  intros d D. rewrite last_skipn by lia.
  apply (nodup_In Nat.eq_dec) in D. fold u in D. apply Sorted_last_max; [|exact D].
  assert (X := nodup_sorted data S). fold u in X. apply StronglySorted_Sorted in X. clear - X.
  induction X as [|a l X IH H]; constructor; [exact IH|]. destruct H; constructor. lia.
Qed.

Definition four : list (aseq nat) :=
  [mkseq 2 0 [[1;2;3;4;5;6]; [8]; [9;10]; [7]]; mkseq 1 0 [[1;1;1;1;1;1]; [2]; [3;3]; [4]]].

Example C136_nonvacuous :
  classes largest /\ aligned four /\ has_elements four /\ distinct (event_rows four) = 3 /\
  (exists p, pad_and_stack largest four (Some 2) 3 =
     Some (p, [[[true;false];[true;false];[true;true]]; [[true;true;true;true;true;true]]])) /\
  (exists p, pad_and_stack largest four None 30 = pad_and_stack largest four (Some 2) 30 /\
     pad_and_stack largest four None 30 =
     Some (p, [[[true;false];[true;false];[true;true]]; [[true;true;true;true;true;true]]])).
Proof.
  split; [exact largest_classes|]. split.
  { intros s t [<-|[<-|[]]] [<-|[<-|[]]]; reflexivity. }
  split. { eexists. split; [left; reflexivity|]. simpl. lia. }
  split; [reflexivity|]. split; [eexists; reflexivity|]. eexists. split; reflexivity.
Qed.
Print Assumptions C136_nonvacuous.
