From Coq Require Import Decimal DecimalString DecimalNat.
From Coq Require Import String Reals List Bool Arith Lia Permutation.
From Verif Require Import Model_X Model_Joint Model_Graph Proofs_Graph Model_Guru Spec_Guru Proofs_Guru Model_Config Spec_Config.
Import ListNotations.
Open Scope nat_scope.

Section Config.
Variable fullmatch : string -> string -> bool.
Local Notation ms := (match_step fullmatch).
Local Notation dloop := (duplicate_loop fullmatch).
Local Notation dstep := (duplicate_step fullmatch).
Local Notation mall := (match_all fullmatch).

(** steps only touch their own name *)
Lemma match_step_other c st s n : n <> s -> dget (fst (ms c st s)) n = dget (fst st) n.
Proof.
  intros Hn. destruct st as [m d]. unfold match_step.
  assert (H : forall v, dget (dset m s v) n = dget m n).
  { intros v. rewrite dget_set. destruct (String.eqb_spec s n); congruence. }
  destruct (dget c s) as [v|]; [|apply H]. destruct (truthy v); [|apply H].
  destruct v; try apply H. destruct (is_null _); simpl; [auto|apply H].
Qed.
Lemma duplicate_loop_other c dup t n : n <> dup ->
  forall m f, dget (fst (dloop c dup t m f)) n = dget m n.
Proof.
  intros Hn. assert (H : forall (m : list (string * cval)) v, dget (dset m dup v) n = dget m n).
  { intros m v. rewrite dget_set. destruct (String.eqb_spec dup n); congruence. }
  induction c as [|[p v] c IH]; intros m f; simpl; auto.
  destruct (negb (is_dict v) && fullmatch p t); [apply H|].
  destruct (is_dict v); rewrite IH; auto.
Qed.
Lemma duplicate_step_other c m dup n : n <> dup -> dget (dstep c m dup) n = dget m n.
Proof.
  intros Hn. unfold duplicate_step. destruct (dget c dup) as [[| |t| |]|]; auto.
  pose proof (duplicate_loop_other c dup t n Hn m false) as H.
  destruct (dloop c dup t m false) as [m' f]. simpl in H. destruct f; auto.
  rewrite dget_set. destruct (String.eqb_spec dup n); congruence.
Qed.

(** duplicates are names whose entry is an alias *)
Lemma duplicates_str c strings : forall st,
  (forall d, In d (snd st) -> exists t, dget c d = Some (CStr t)) ->
  forall d, In d (snd (fold_left (ms c) strings st)) -> exists t, dget c d = Some (CStr t).
Proof.
  induction strings as [|s strings IH]; intros [m ds] H d; simpl; auto. apply IH. clear IH d.
  intros d. unfold match_step. destruct (dget c s) as [v|] eqn:E; [|apply H].
  destruct (truthy v); [|apply H]. destruct v; try apply H.
  destruct (is_null _); [|apply H]. simpl. rewrite in_app_iff. simpl. intros [Hd|[<-|[]]]; [now apply H|eauto].
Qed.
Lemma duplicates_sub c strings : forall st d,
  In d (snd (fold_left (ms c) strings st)) -> In d (snd st) \/ In d strings.
Proof.
  induction strings as [|s strings IH]; intros st d; simpl; auto. intros H. apply IH in H as [H|H]; auto.
  destruct st as [m ds]. simpl. unfold match_step in H.
  destruct (dget c s) as [v|] eqn:E; [|auto].
  destruct (truthy v); [|auto]. destruct v; auto.
  destruct (is_null _); [|auto]. simpl in H. rewrite in_app_iff in H. simpl in H. tauto.
Qed.

Lemma fold_dstep_other c ds n : ~ In n ds -> forall m, dget (fold_left (dstep c) ds m) n = dget m n.
Proof.
  induction ds as [|d ds IH]; intros Hn m; simpl; auto. simpl in Hn.
  rewrite IH by tauto. apply duplicate_step_other. intros ->. tauto.
Qed.

Lemma fold_ms_fixed c n v strings :
  (forall st, dget (fst (ms c st n)) n = Some v) ->
  forall st, In n strings \/ dget (fst st) n = Some v -> dget (fst (fold_left (ms c) strings st)) n = Some v.
Proof.
  intros Hst. induction strings as [|s strings IH]; intros st H; simpl.
  - destruct H as [[]|]; auto.
  - apply IH. destruct (string_dec n s) as [->|Hne]; auto.
    rewrite match_step_other by auto. destruct H as [[->|H]|H]; auto. congruence.
Qed.

(** an entry that is truthy and not an alias is used as it is *)
Theorem exact_entry c strings n v :
  In n strings -> dget c n = Some v -> truthy v = true -> (forall t, v <> CStr t) ->
  dget (mall strings c) n = Some v.
Proof.
  intros Hn Hc Ht Hs. unfold match_all.
  destruct (fold_left (ms c) strings ([], [])) as [m ds] eqn:E.
  assert (Hds : ~ In n ds).
  { intros H. destruct (duplicates_str c strings ([], [])) with (d := n) as (t & Et).
    - intros d [].
    - rewrite E. exact H.
    - rewrite Hc in Et. injection Et as ->. eapply Hs; reflexivity. }
  rewrite fold_dstep_other by auto.
  pose proof (fold_ms_fixed c n v strings) as F. change m with (fst (m, ds)). rewrite <- E. apply F; auto.
  intros [m0 d0]. unfold match_step. rewrite Hc, Ht. destruct v; simpl; rewrite ?dget_set, ?String.eqb_refl; auto.
  exfalso. eapply Hs; reflexivity.
Qed.

(** no entry of that name: the first pattern that matches, null if none does *)
Theorem pattern_entry c strings n :
  In n strings -> (forall v, dget c n = Some v -> truthy v = false) ->
  dget (mall strings c) n = Some (match first_match fullmatch c n with Some v => v | None => CNull end).
Proof.
  intros Hn Hc. unfold match_all.
  destruct (fold_left (ms c) strings ([], [])) as [m ds] eqn:E.
  assert (Hstep : forall st, ms c st n = (dset (fst st) n (match first_match fullmatch c n with Some v => v | None => CNull end), snd st)).
  { intros [m0 d0]. unfold match_step. destruct (dget c n) as [v|]; auto. now rewrite (Hc v eq_refl). }
  assert (Hds : ~ In n ds).
  { assert (G : forall l st, ~ In n (snd st) -> ~ In n (snd (fold_left (ms c) l st))).
    { induction l as [|s l IH]; intros st H; simpl; auto. apply IH.
      destruct (string_dec n s) as [<-|Hne]; [now rewrite Hstep|].
      destruct st as [m0 d0]. unfold match_step. destruct (dget c s) as [v|]; auto. destruct (truthy v); auto.
      destruct v; auto. destruct (is_null _); auto. simpl in *. rewrite in_app_iff. simpl. intuition. }
    specialize (G strings ([], []) (fun H => H)). now rewrite E in G. }
  rewrite fold_dstep_other by auto. change m with (fst (m, ds)). rewrite <- E.
  apply fold_ms_fixed; auto. intros st. rewrite Hstep. simpl. now rewrite dget_set, String.eqb_refl.
Qed.

(** aliases: the value is the alias itself, or a pattern's value for its target, or null *)
Lemma duplicate_loop_found c dup t : forall m f,
  let '(m', f') := dloop c dup t m f in
  f' = true -> f = false ->
  exists w, dget m' dup = Some w
    /\ (w = CStr t \/ exists p, In (p, w) c /\ fullmatch p t = true /\ is_dict w = false).
Proof.
  assert (G : forall c m f, (f = true -> dget m dup = Some (CStr t)) ->
    let '(m', f') := dloop c dup t m f in f' = true ->
    exists w, dget m' dup = Some w
      /\ (w = CStr t \/ exists p, In (p, w) c /\ fullmatch p t = true /\ is_dict w = false)).
  { clear c. induction c as [|[p v] c IH]; intros m f Hf; simpl; [intros ->; eauto|].
    destruct (negb (is_dict v) && fullmatch p t) eqn:E1.
    - intros _. exists v. rewrite dget_set, String.eqb_refl. split; auto. right.
      apply andb_true_iff in E1 as [E1 E2]. apply negb_true_iff in E1. eauto.
    - destruct (is_dict v) eqn:E2.
      + specialize (IH (dset m dup (CStr t)) true). rewrite dget_set, String.eqb_refl in IH.
        specialize (IH (fun _ => eq_refl)). destruct (dloop c dup t (dset m dup (CStr t)) true) as [m' f'].
        intros Hf'. destruct (IH Hf') as (w & H1 & [H2|(q & H2 & H3)]); eauto 8.
      + specialize (IH m f Hf). destruct (dloop c dup t m f) as [m' f'].
        intros Hf'. destruct (IH Hf') as (w & H1 & [H2|(q & H2 & H3)]); eauto 8. }
  intros m f. specialize (G c m f). destruct (dloop c dup t m f) as [m' f'].
  intros Hf' ->. apply G; auto. discriminate.
Qed.

Definition alias_outcome (c : config) (t : string) (w : cval) : Prop :=
  w = CStr t \/ w = CNull \/ exists p, In (p, w) c /\ fullmatch p t = true /\ is_dict w = false.

Lemma dstep_outcome c m n t : dget c n = Some (CStr t) ->
  exists w, dget (dstep c m n) n = Some w /\ alias_outcome c t w.
Proof.
  intros Hc. unfold duplicate_step. rewrite Hc.
  pose proof (duplicate_loop_found c n t m false) as H.
  destruct (dloop c n t m false) as [m' [|]].
  - destruct (H eq_refl eq_refl) as (w & H1 & [H2|H2]); exists w; unfold alias_outcome; auto.
  - exists CNull. rewrite dget_set, String.eqb_refl. unfold alias_outcome. auto.
Qed.

Lemma fold_dstep_outcome c n t ds : dget c n = Some (CStr t) -> forall m,
  In n ds \/ (exists w, dget m n = Some w /\ alias_outcome c t w) ->
  exists w, dget (fold_left (dstep c) ds m) n = Some w /\ alias_outcome c t w.
Proof.
  intros Hc. induction ds as [|d ds IH]; intros m H; simpl; [destruct H as [[]|]; auto|].
  apply IH. destruct (string_dec n d) as [->|Hne]; [right; now apply dstep_outcome|].
  destruct H as [[->|H]|H]; auto; [congruence|]. right. now rewrite duplicate_step_other by auto.
Qed.

Theorem alias_entry c strings n t :
  In n strings -> dget c n = Some (CStr t) -> t <> EmptyString ->
  exists w, dget (mall strings c) n = Some w /\ alias_outcome c t w.
Proof.
  intros Hn Hc Ht. unfold match_all.
  assert (Hty : truthy (CStr t) = true).
  { simpl. apply negb_true_iff. now apply String.eqb_neq. }
  assert (G : forall l st, In n l \/ (In n (snd st) \/ dget (fst st) n = Some (CStr t)) ->
     In n (snd (fold_left (ms c) l st)) \/ dget (fst (fold_left (ms c) l st)) n = Some (CStr t)).
  { induction l as [|s l IH]; intros st H; simpl; [destruct H as [[]|]; auto|].
    apply IH. destruct (string_dec n s) as [<-|Hne].
    - right. destruct st as [m0 d0]. unfold match_step. rewrite Hc, Hty.
      destruct (is_null _); simpl; [left; apply in_or_app; right; now left|right].
      now rewrite dget_set, String.eqb_refl.
    - destruct H as [[->|H]|H]; auto; [congruence|]. right.
      rewrite match_step_other by auto. destruct H as [H|H]; auto. left.
      destruct st as [m0 d0]. unfold match_step. destruct (dget c s) as [v|]; auto. destruct (truthy v); auto.
      destruct v; auto. destruct (is_null _); auto. simpl in *. apply in_or_app; auto. }
  specialize (G strings ([], []) (or_introl Hn)).
  destruct (fold_left (ms c) strings ([], [])) as [m ds]. simpl in G.
  apply fold_dstep_outcome; auto. destruct G as [G|G]; auto. right. exists (CStr t). split; auto. now left.
Qed.

(** every requested name gets some value, so the "missing prior" check can never fire *)
Theorem match_all_total c strings n : In n strings -> exists v, dget (mall strings c) n = Some v.
Proof.
  intros Hn. destruct (dget c n) as [v|] eqn:E.
  - destruct (truthy v) eqn:Et.
    + destruct v as [|x|t|f|b]; try discriminate.
      * eexists. eapply exact_entry; eauto. discriminate.
      * destruct (alias_entry c strings n t Hn E) as (w & H & _); eauto.
        intros ->. discriminate.
      * eexists. eapply exact_entry; eauto. discriminate.
      * eexists. eapply exact_entry; eauto. discriminate.
    + eexists. apply pattern_entry; auto. intros v' Hv'. congruence.
  - eexists. apply pattern_entry; auto. intros v' Hv'. congruence.
Qed.

Section Processed.
Context {K : Type}.
Variable available : string -> bool.
Variable make : string -> list (string * cval) -> list (string * list X) -> dist K.

Lemma processed_get params c r n : get_processed_priors fullmatch available make params c = Some r ->
  dget r n = match dget (mall params c) n with
             | Some v => process available make v
             | None => None
             end.
Proof.
  unfold get_processed_priors. destruct (forallb _ params); [|discriminate].
  generalize (mall params c) as m. clear. intros m. revert r. induction m as [|[k v] m IH]; intros r.
  - intros E. injection E as <-. reflexivity.
  - simpl. destruct (process available make v) as [w|] eqn:Ew; simpl; [|discriminate].
    destruct (map_opt _ m) as [r'|] eqn:Er; [|discriminate]. intros E; injection E as <-. simpl.
    destruct (String.eqb k n); auto.
Qed.

Theorem missing_prior_is_null params c r n :
  get_processed_priors fullmatch available make params c = Some r ->
  In n params -> dget c n = None -> (forall p v, In (p, v) c -> fullmatch p n = false) ->
  dget r n = Some VNone.
Proof.
  intros Hr Hn Hc Hp. rewrite (processed_get _ _ _ _ Hr).
  rewrite pattern_entry; auto; [|intros v Hv; congruence].
  assert (first_match fullmatch c n = None) as ->; auto.
  clear -Hp. induction c as [|[p v] c IH]; simpl; auto.
  rewrite (Hp p v) by now left. apply IH. intros q w Hq. apply (Hp q w). now right.
Qed.

(** the only way to fail is a malformed distribution entry *)
Theorem processing_succeeds params c :
  (forall v, (exists k, In (k, v) (mall params c)) -> process available make v <> None) ->
  exists r, get_processed_priors fullmatch available make params c = Some r.
Proof.
  intros H. unfold get_processed_priors.
  assert (E : forallb (fun p => din (mall params c) p) params = true).
  { apply forallb_forall. intros n Hn. unfold din. destruct (match_all_total c params n Hn) as (v & ->). reflexivity. }
  rewrite E. clear E. revert H. generalize (mall params c) as m. induction m as [|[k v] m IH]; intros H; simpl; eauto.
  destruct (process available make v) as [w|] eqn:Ew.
  - simpl. destruct IH as (r & ->); eauto. intros v' (k' & Hk). apply H. exists k'. now right.
  - exfalso. apply (H v); auto. exists k. now left.
Qed.
End Processed.
End Config.

(** ** component parameters *)
Lemma append_inj_l a b c : (a ++ b)%string = (a ++ c)%string -> b = c.
Proof. induction a; simpl; auto. intros E. injection E. auto. Qed.
Lemma uint_string_inj i j :
  NilEmpty.string_of_uint (Nat.to_uint i) = NilEmpty.string_of_uint (Nat.to_uint j) -> i = j.
Proof.
  intros E. apply (f_equal NilEmpty.uint_of_string) in E. rewrite !NilEmpty.usu in E.
  injection E as E. apply (f_equal Nat.of_uint) in E. now rewrite !Unsigned.of_to in E.
Qed.
Lemma numbered_inj name i j : numbered name i = numbered name j -> i = j.
Proof. unfold numbered. intros E. apply append_inj_l in E. injection E as E. now apply uint_string_inj. Qed.
Lemma string_length_app a b : String.length (a ++ b)%string = String.length a + String.length b.
Proof. induction a; simpl; auto. Qed.
Lemma numbered_not_plain name i : numbered name i <> name.
Proof.
  unfold numbered. intros E. apply (f_equal String.length) in E. rewrite !string_length_app in E. simpl in E. lia.
Qed.

(** ** wiping *)
Section Wipe.
Context {A : Type}.
Implicit Types (row : list A) (w : list nat).

Definition inw w k := existsb (Nat.eqb k) w.
Lemma inw_In w k : inw w k = true <-> In k w.
Proof.
  unfold inw. rewrite existsb_exists. split.
  - intros (x & H & E). apply Nat.eqb_eq in E. now subst.
  - intros H. exists k. split; auto. apply Nat.eqb_refl.
Qed.
Lemma inw_not w k : inw w k = false <-> ~ In k w.
Proof. rewrite <- inw_In. destruct (inw w k); split; congruence. Qed.

(** number of kept columns in [k, i) *)
Definition rank (k : nat) w (i : nat) : nat := length (filter (fun j => negb (inw w j)) (seq k (i - k))).

Lemma rank_refl k w : rank k w k = 0.
Proof. unfold rank. now rewrite Nat.sub_diag. Qed.
Lemma rank_S k w i : k < i -> rank k w i = (if inw w k then 0 else 1) + rank (S k) w i.
Proof.
  intros H. unfold rank. replace (i - k) with (S (i - S k)) by lia. cbn [seq filter].
  destruct (inw w k); reflexivity.
Qed.

Lemma kept_nth row : forall k w i, k <= i -> ~ In i w ->
  nth_error (kept k w row) (rank k w i) = nth_error row (i - k).
Proof.
  induction row as [|x row IH]; intros k w i Hk Hi.
  - simpl. destruct (rank k w i), (i - k); reflexivity.
  - cbn [kept]. fold (inw w k). destruct (Nat.eq_dec k i) as [->|Hne].
    + rewrite rank_refl, Nat.sub_diag. assert (inw w i = false) as -> by now apply inw_not. reflexivity.
    + rewrite rank_S by lia. replace (i - k) with (S (i - S k)) by lia. cbn [nth_error].
      destruct (inw w k); simpl; apply IH; auto; lia.
Qed.

Lemma kept_ext row : forall k w w', (forall j, k <= j -> inw w j = inw w' j) -> kept k w row = kept k w' row.
Proof.
  induction row as [|x row IH]; intros k w w' H; simpl; auto. fold (inw w k). fold (inw w' k).
  rewrite H by lia. rewrite (IH (S k) w w'); auto. intros j Hj. apply H. lia.
Qed.
Lemma kept_nil row : forall k, kept k [] row = row.
Proof. induction row as [|x row IH]; intros k; simpl; auto. now rewrite IH. Qed.

Lemma delete_cons x row i : delete_at (S i) (x :: row) = x :: delete_at i row.
Proof. reflexivity. Qed.

Lemma kept_delete row : forall k w i, k <= i < k + length row -> ~ In i w ->
  delete_at (rank k w i) (kept k w row) = kept k (i :: w) row /\ rank k w i < length (kept k w row).
Proof.
  induction row as [|x row IH]; intros k w i Hi Hw; simpl in Hi; [lia|].
  cbn [kept]. fold (inw w k). fold (inw (i :: w) k). destruct (Nat.eq_dec k i) as [->|Hne].
  - rewrite rank_refl. assert (inw w i = false) as -> by now apply inw_not.
    assert (inw (i :: w) i = true) as -> by (apply inw_In; now left).
    split; [|simpl; lia]. unfold delete_at. simpl. apply kept_ext. intros j Hj. unfold inw. simpl.
    destruct (Nat.eqb_spec j i); [lia|reflexivity].
  - rewrite rank_S by lia. assert (Hinw : inw (i :: w) k = inw w k).
    { unfold inw. simpl. destruct (Nat.eqb_spec k i); [congruence|reflexivity]. }
    rewrite Hinw. destruct (IH (S k) w i) as [H1 H2]; [lia|auto|].
    destruct (inw w k); simpl; auto. rewrite delete_cons, H1. split; auto. lia.
Qed.

Lemma rank_mono k w i j : k <= i <= j -> rank k w i <= rank k w j.
Proof.
  intros H. unfold rank. replace (j - k) with ((i - k) + (j - i)) by lia.
  rewrite seq_app, filter_app, app_length. lia.
Qed.
Lemma rank_lt k w i j : k <= i < j -> ~ In i w -> rank k w i < rank k w j.
Proof.
  intros H Hi. unfold rank. replace (j - k) with ((i - k) + (1 + (j - S i))) by lia.
  rewrite seq_app, filter_app, app_length. replace (k + (i - k)) with i by lia.
  cbn [Nat.add seq filter]. assert (inw w i = false) as -> by now apply inw_not. simpl. lia.
Qed.
Lemma rank_cons k w i j : k <= i -> k <= j -> ~ In i w ->
  rank k (i :: w) j = if Nat.ltb i j then rank k w j - 1 else rank k w j.
Proof.
  intros Hi Hj Hw. assert (Hout : forall a n, (i < a \/ a + n <= i) ->
     length (filter (fun j => negb (inw (i :: w) j)) (seq a n)) = length (filter (fun j => negb (inw w j)) (seq a n))).
  { intros a n. revert a. induction n as [|n IH]; intros a H; cbn [seq filter]; auto.
    assert (E : inw (i :: w) a = inw w a).
    { unfold inw. simpl. destruct (Nat.eqb_spec a i); [lia|reflexivity]. }
    rewrite E. destruct (negb (inw w a)); simpl; rewrite IH by lia; auto. }
  unfold rank. destruct (Nat.ltb_spec i j) as [H|H].
  - replace (j - k) with ((i - k) + (1 + (j - S i))) by lia.
    rewrite !seq_app, !filter_app, !app_length. replace (k + (i - k)) with i by lia.
    rewrite Hout by lia. cbn [Nat.add seq filter].
    assert (inw w i = false) as -> by now apply inw_not.
    assert (inw (i :: w) i = true) as -> by (apply inw_In; now left). simpl.
    rewrite Hout by lia. lia.
  - apply Hout. lia.
Qed.

(** invariant of the outer loop: [w] = columns wiped so far *)
Definition remaining (mapping : list (string * nat)) (done : list string) (w : list nat) : list (string * nat) :=
  map (fun p => (fst p, rank 0 w (snd p))) (filter (fun p => negb (mem (fst p) done)) mapping).

Lemma dpop_remaining mapping done w key :
  dpop (remaining mapping done w) key = remaining mapping (key :: done) w.
Proof.
  unfold dpop, remaining. induction mapping as [|[k i] m IH]; [reflexivity|].
  cbn [filter fst]. change (mem k (key :: done)) with (String.eqb k key || mem k done).
  destruct (mem k done); cbn [negb map filter fst snd].
  - rewrite orb_true_r. exact IH.
  - rewrite orb_false_r. destruct (String.eqb k key); cbn [negb map filter fst snd]; [exact IH|].
    f_equal. exact IH.
Qed.

Lemma dget_remaining mapping done w key i : NoDup (map fst mapping) -> In (key, i) mapping -> ~ In key done ->
  dget (remaining mapping done w) key = Some (rank 0 w i).
Proof.
  intros Hn Hi Hd. apply In_dget.
  - unfold remaining. rewrite map_map. simpl.
    clear -Hn. induction mapping as [|[k i] m IH]; simpl; [constructor|]. inversion Hn as [|? ? H1 H2]; subst.
    destruct (mem k done); simpl; auto. constructor; auto. intros H. apply H1.
    apply in_map_iff in H as ([k' i'] & <- & H). apply filter_In in H as [H _]. change k' with (fst (k', i')). now apply in_map.
  - unfold remaining. apply in_map_iff. exists (key, i). split; auto. apply filter_In. split; auto.
    apply negb_true_iff, mem_not_In. auto.
Qed.

Theorem wipe_spec (mapping : list (string * nat)) (rows : list (list A)) (ncols : nat) :
  NoDup (map fst mapping) -> NoDup (map snd mapping) ->
  (forall n i, In (n, i) mapping -> i < ncols) -> Forall (fun r => length r = ncols) rows ->
  exists mapping',
    wipe_log_rate mapping rows
    = Some (mapping', map (kept 0 (rate_columns mapping)) rows, filter (starts_with "log_rate") (map fst mapping))
    /\ map fst mapping' = filter (fun n => negb (starts_with "log_rate" n)) (map fst mapping)
    /\ (forall n i, In (n, i) mapping -> starts_with "log_rate" n = false ->
          exists i', dget mapping' n = Some i'
            /\ (forall row, In row rows -> nth_error (kept 0 (rate_columns mapping) row) i' = nth_error row i))
    /\ (forall n i m j i' j', In (n, i) mapping -> In (m, j) mapping ->
          dget mapping' n = Some i' -> dget mapping' m = Some j' -> (i < j <-> i' < j')).
Proof.
  intros Hk Hv Hlt Hrows. unfold wipe_log_rate.
  match goal with |- context [fold_left ?f (map fst mapping) _] => set (step := f) end.
  assert (G : forall todo done, mapping = done ++ todo ->
     let w := rev (rate_columns done) in
     fold_left step (map fst todo)
       (Some (remaining mapping (filter (starts_with "log_rate") (rev (map fst done))) w, map (kept 0 w) rows,
              filter (starts_with "log_rate") (map fst done)))
     = let w := rev (rate_columns mapping) in
       Some (remaining mapping (filter (starts_with "log_rate") (rev (map fst mapping))) w, map (kept 0 w) rows,
              filter (starts_with "log_rate") (map fst mapping))).
  { induction todo as [|[k i] todo IH]; intros done Hm w.
    - rewrite app_nil_r in Hm. subst done. reflexivity.
    - cbn [map fst fold_left].
      assert (Hm' : mapping = (done ++ [(k, i)]) ++ todo) by (rewrite <- app_assoc; exact Hm).
      specialize (IH _ Hm'). cbv zeta in IH. rewrite <- IH. f_equal. clear IH.
      assert (Hki : In (k, i) mapping) by (rewrite Hm; apply in_or_app; right; now left).
      assert (Hkd : ~ In k (map fst done)).
      { rewrite Hm, map_app in Hk. simpl in Hk. apply NoDup_remove_2 in Hk. rewrite in_app_iff in Hk. tauto. }
      assert (Hid : ~ In i (map snd done)).
      { rewrite Hm, map_app in Hv. simpl in Hv. apply NoDup_remove_2 in Hv. rewrite in_app_iff in Hv. tauto. }
      assert (Hiw : ~ In i w).
      { unfold w. rewrite <- in_rev. unfold rate_columns. intros H. apply Hid.
        apply in_map_iff in H as (p & <- & H). apply filter_In in H as [H _]. now apply in_map. }
      assert (Hkf : ~ In k (filter (starts_with "log_rate") (rev (map fst done)))).
      { rewrite filter_In, <- in_rev. tauto. }
      unfold step at 1. rewrite !map_app, !rev_app_distr, filter_app. cbn [map rev fst app filter].
      unfold rate_columns. rewrite filter_app, map_app, rev_app_distr. fold (rate_columns done). fold w. cbn [filter fst].
      destruct (starts_with "log_rate" k) eqn:Es.
      + cbn [map rev snd app filter]. unfold wipe_one.
        rewrite (dget_remaining mapping _ w k i); auto.
        rewrite dpop_remaining.
        assert (Hlens : forallb (fun r => Nat.ltb (rank 0 w i) (length r)) (map (kept 0 w) rows) = true).
        { apply forallb_forall. intros r Hr. apply in_map_iff in Hr as (r0 & <- & Hr).
          apply Nat.ltb_lt. rewrite Forall_forall in Hrows. specialize (Hrows _ Hr). specialize (Hlt _ _ Hki).
          apply kept_delete; auto. lia. }
        rewrite Hlens. f_equal. f_equal. f_equal.
        * unfold remaining. rewrite map_map. simpl. apply map_ext_in. intros [k' i'] H. simpl. f_equal.
          apply filter_In in H as [H Hf]. simpl in Hf. rewrite rank_cons; auto; try lia.
          assert (Hne : i' <> i).
          { intros ->. assert (k' = k).
            { clear -Hv H Hki. revert H Hki Hv. induction mapping as [|[a b] m IH]; simpl; [tauto|].
              intros [E1|H1] [E2|H2] Hv; inversion Hv as [|? ? N1 N2]; subst.
              - congruence.
              - injection E1 as -> ->. exfalso. apply N1. change i with (snd (k, i)). now apply in_map.
              - injection E2 as -> ->. exfalso. apply N1. change i with (snd (k', i)). now apply in_map.
              - auto. }
            subst k'. rewrite String.eqb_refl in Hf. discriminate. }
          destruct (Nat.ltb_spec i i') as [Hlt1|Hge].
          -- pose proof (rank_lt 0 w i i'). destruct (Nat.ltb_spec (rank 0 w i) (rank 0 w i')); lia || (exfalso; assert (rank 0 w i < rank 0 w i') by (apply H0; auto; lia); lia).
          -- pose proof (rank_mono 0 w i' i). destruct (Nat.ltb_spec (rank 0 w i) (rank 0 w i')); auto. exfalso. lia.
        * rewrite map_map. apply map_ext_in. intros r Hr. rewrite Forall_forall in Hrows. specialize (Hrows _ Hr).
          specialize (Hlt _ _ Hki). apply kept_delete; auto. lia.
        * rewrite filter_app. cbn [filter]. now rewrite Es.
      + cbn [map rev snd app filter]. rewrite filter_app. cbn [filter]. rewrite Es, app_nil_r. reflexivity. }
  specialize (G mapping [] eq_refl). cbn [rate_columns filter map rev] in G. cbv zeta in G.
  assert (Hinit : remaining mapping [] [] = mapping).
  { unfold remaining. clear. induction mapping as [|[k i] m IH]; [reflexivity|].
    change (filter (fun p => negb (mem (fst p) [])) ((k, i) :: m)) with ((k, i) :: filter (fun p => negb (mem (fst p) [])) m).
    cbn [map fst snd]. rewrite IH. f_equal. f_equal. unfold rank. rewrite Nat.sub_0_r.
    assert (filter (fun j => negb (inw [] j)) (seq 0 i) = seq 0 i) as ->.
    { generalize 0 as a. induction i as [|i IHi]; intros a; [reflexivity|].
      cbn [seq filter]. change (inw [] a) with false. cbn [negb]. now rewrite IHi. }
    apply seq_length. }
  assert (Hinit2 : map (kept 0 (@nil nat)) rows = rows).
  { clear. induction rows as [|r rows IH]; simpl; auto. now rewrite kept_nil, IH. }
  unfold rate_columns in G at 1. cbn [filter map rev] in G.
  rewrite Hinit, Hinit2 in G. rewrite G. clear G.
  assert (Hrev : forall r : list A, kept 0 (rev (rate_columns mapping)) r = kept 0 (rate_columns mapping) r).
  { intros r. apply kept_ext. intros j _. destruct (inw (rate_columns mapping) j) eqn:E.
    - apply inw_In in E. apply inw_In. now rewrite <- in_rev.
    - apply inw_not in E. apply inw_not. now rewrite <- in_rev. }
  set (wr := rev (rate_columns mapping)). set (dn := filter (starts_with "log_rate") (rev (map fst mapping))).
  assert (Hdn : forall n i, In (n, i) mapping -> (In n dn <-> starts_with "log_rate" n = true)).
  { intros n i H. unfold dn. rewrite filter_In, <- in_rev. split; [tauto|]. split; auto.
    change n with (fst (n, i)). now apply in_map. }
  exists (remaining mapping dn wr). split; [|split; [|split]].
  - rewrite (map_ext _ _ Hrev). reflexivity.
  - unfold remaining. rewrite map_map. simpl.
    assert (Hsub : forall l, (forall p, In p l -> In p mapping) ->
       map (fun x => fst x) (filter (fun p => negb (mem (fst p) dn)) l)
       = filter (fun n => negb (starts_with "log_rate" n)) (map fst l)).
    { induction l as [|[k i] l IH]; intros H; simpl; auto.
      assert (E : mem k dn = starts_with "log_rate" k).
      { destruct (starts_with "log_rate" k) eqn:E.
        - apply mem_In. apply (Hdn k i); auto. apply H. now left.
        - apply mem_not_In. rewrite (Hdn k i); [congruence|]. apply H. now left. }
      rewrite E. destruct (starts_with "log_rate" k); simpl; rewrite IH; auto; intros p Hp; apply H; now right. }
    apply Hsub. auto.
  - intros n i Hni Hs. exists (rank 0 wr i). split.
    + apply dget_remaining; auto. rewrite (Hdn n i Hni). congruence.
    + intros row Hr. rewrite <- Hrev. fold wr. rewrite kept_nth; [now rewrite Nat.sub_0_r|lia|].
      unfold wr. rewrite <- in_rev. unfold rate_columns. intros H. apply in_map_iff in H as ([n' i'] & E & H).
      simpl in E. subst i'. apply filter_In in H as [H Hs']. simpl in Hs'.
      assert (n' = n); [|congruence].
      clear -Hv H Hni. revert H Hni Hv. induction mapping as [|[a b] m IH]; simpl; [tauto|].
      intros [E1|H1] [E2|H2] Hv; inversion Hv as [|? ? N1 N2]; subst.
      * congruence.
      * injection E1 as -> ->. exfalso. apply N1. change i with (snd (n, i)). now apply in_map.
      * injection E2 as -> ->. exfalso. apply N1. change i with (snd (n', i)). now apply in_map.
      * auto.
  - assert (Hget : forall n i i', In (n, i) mapping -> dget (remaining mapping dn wr) n = Some i' ->
        i' = rank 0 wr i /\ ~ In i wr).
    { intros n i i' Hni Hg. assert (Hnd : ~ In n dn).
      { intros Hd. apply dget_In in Hg. unfold remaining in Hg. apply in_map_iff in Hg as ([n0 i0] & E & Hg).
        injection E as -> <-. apply filter_In in Hg as [_ Hg]. apply negb_true_iff, mem_not_In in Hg. auto. }
      rewrite (dget_remaining mapping dn wr n i) in Hg; auto. injection Hg as <-. split; auto.
      unfold wr. rewrite <- in_rev. unfold rate_columns. intros H. apply in_map_iff in H as ([n' i''] & E & H).
      simpl in E. subst i''. apply filter_In in H as [H Hs']. simpl in Hs'. apply Hnd. apply (Hdn n i); auto.
      assert (n' = n); [|congruence].
      clear -Hv H Hni. revert H Hni Hv. induction mapping as [|[a b] m IH]; simpl; [tauto|].
      intros [E1|H1] [E2|H2] Hv; inversion Hv as [|? ? N1 N2]; subst.
      * congruence.
      * injection E1 as -> ->. exfalso. apply N1. change i with (snd (n, i)). now apply in_map.
      * injection E2 as -> ->. exfalso. apply N1. change i with (snd (n', i)). now apply in_map.
      * auto. }
    intros n i m j i' j' H1 H2 G1 G2. destruct (Hget _ _ _ H1 G1) as [-> N1]. destruct (Hget _ _ _ H2 G2) as [-> N2].
    split; intros H; [apply rank_lt; auto; lia|].
    destruct (Nat.lt_ge_cases i j) as [|Hge]; auto. pose proof (rank_mono 0 wr j i). lia.
Qed.
End Wipe.
