From Coq Require Import String Reals Lra Lia List Bool Permutation Arith.
From Verif Require Import Model_X Spec_X Proofs_X Model_Likelihood Model_Joint Spec_Joint
     Spec_MonteCarlo Proofs_MonteCarlo.
Import ListNotations.
Open Scope nat_scope.

Section J.
Context {K : Type}.
Implicit Types (d : dist K) (ms : list (dist K)) (v : list X).

Definition total ms : nat := fold_right Nat.add 0 (map event_size ms).

Lemma total_cons d ms : total (d :: ms) = event_size d + total ms.
Proof. reflexivity. Qed.
Lemma total_app a b : total (a ++ b) = total a + total b.
Proof. induction a; simpl; auto. unfold total in *. simpl. lia. Qed.

Lemma scalar_size d : is_scalar d = true -> event_size d = 1.
Proof. destruct d as [[|]|]; simpl; congruence. Qed.

Lemma nth_app_pre {A} (pre rest : list A) x : nth (length pre) (pre ++ x :: rest) x = x.
Proof. rewrite app_nth2, Nat.sub_diag; auto. Qed.

Lemma dyn_slice_app pre mid post :
  dyn_slice (pre ++ mid ++ post) (length pre) (length mid) = mid.
Proof.
  unfold dyn_slice. rewrite !app_length.
  replace (Nat.min (length pre) (length pre + (length mid + length post) - length mid)) with (length pre) by lia.
  rewrite skipn_app, skipn_all, Nat.sub_diag. simpl.
  rewrite firstn_app, Nat.sub_diag, firstn_all. simpl. now rewrite app_nil_r.
Qed.

Lemma dyn_index_app pre x post : dyn_index (pre ++ x :: post) (length pre) = [x].
Proof.
  unfold dyn_index. rewrite app_length. simpl length.
  replace (Nat.min (length pre) (length pre + S (length post) - 1)) with (length pre) by lia.
  rewrite app_nth2, Nat.sub_diag by lia. reflexivity.
Qed.

Lemma slice_of_cut {B} (f : B -> list X -> list X) d ms pre part parts :
  length part = event_size d ->
  take_slice (pre ++ part ++ parts) (hd (At 0) (shaped_values (length pre) (d :: ms))) = part.
Proof.
  intros H. simpl. destruct (is_scalar d) eqn:E; simpl.
  - apply scalar_size in E. rewrite E in H. destruct part as [|x [|]]; try discriminate.
    apply dyn_index_app.
  - replace (length pre + event_size d - length pre) with (length part) by lia. apply dyn_slice_app.
Qed.

Lemma shaped_values_cons k d ms :
  shaped_values k (d :: ms)
  = hd (At 0) (shaped_values k (d :: ms)) :: shaped_values (k + event_size d) ms.
Proof. simpl. destruct (is_scalar d) eqn:E; auto. simpl. now rewrite (scalar_size d E). Qed.

Lemma slices_of_cut ms : forall pre parts post,
  cut_as ms parts ->
  map (take_slice (pre ++ concat parts ++ post)) (shaped_values (length pre) ms) = parts.
Proof.
  induction ms as [|d ms IH]; intros pre parts post H; inversion H; subst; auto.
  rewrite shaped_values_cons. cbn [map concat]. f_equal.
  - rewrite <- app_assoc. apply (@slice_of_cut unit (fun _ x => x)). auto.
  - rewrite <- H2, <- app_length. rewrite <- (IH (pre ++ y) l' post) at 2; auto.
    now rewrite <- !app_assoc.
Qed.

Lemma shaped_values_length k ms : length (shaped_values k ms) = length ms.
Proof. revert k. induction ms; intros k; auto. rewrite shaped_values_cons. simpl. now rewrite IHms. Qed.

Lemma fold_combine_map {A B} (f : A -> B -> X) (la : list A) (lb : list B) acc :
  fold_left (fun acc (p : (B -> X) * B) => xadd acc (fst p (snd p)))
            (combine (map f la) lb) acc
  = xadd acc (xsum (map (fun p => f (fst p) (snd p)) (combine la lb))).
Proof.
  revert lb acc. induction la as [|a la IH]; intros [|b lb] acc; simpl; try now rewrite xadd_0_r.
  rewrite IH. now rewrite xadd_assoc.
Qed.

Lemma combine_map_r {A B C} (f : B -> C) (la : list A) (lb : list B) :
  combine la (map f lb) = map (fun p => (fst p, f (snd p))) (combine la lb).
Proof. revert lb; induction la; intros [|]; simpl; auto. now rewrite IHla. Qed.

(** C14 *)
Theorem joint_log_prob_spec ms s parts :
  cut_as ms parts -> log_prob (Joint ms s) (concat parts) = sum_log_probs ms parts.
Proof.
  intros H. cbn [log_prob].
  pose proof (slices_of_cut ms [] parts [] H) as E. simpl app in E. simpl length in E.
  rewrite app_nil_r in E.
  assert (G : forall (l : list (dist K)) sl acc,
    fold_left (fun acc (p : (list X -> X) * slice) => xadd acc (fst p (take_slice (concat parts) (snd p))))
              (combine (map (fun m => log_prob m) l) sl) acc
    = xadd acc (sum_log_probs l (map (take_slice (concat parts)) sl))).
  { induction l as [|a l IH]; intros [|b sl] acc; unfold sum_log_probs; simpl; try now rewrite xadd_0_r.
    rewrite IH. rewrite <- xadd_assoc. reflexivity. }
  rewrite G, xadd_0_l, E. reflexivity.
Qed.

Theorem joint_support_spec ms parts :
  cut_as ms parts -> in_support (Joint ms None) (concat parts) = all_supports ms parts.
Proof.
  intros H. cbn [in_support].
  pose proof (slices_of_cut ms [] parts [] H) as E. simpl app in E. simpl length in E.
  rewrite app_nil_r in E.
  assert (G : forall (l : list (dist K)) sl acc,
    fold_left (fun acc (p : (list X -> bool) * slice) => acc && fst p (take_slice (concat parts) (snd p)))
              (combine (map (fun m => in_support m) l) sl) acc
    = acc && (all_supports l (map (take_slice (concat parts)) sl))).
  { induction l as [|a l IH]; intros [|b sl] acc; unfold all_supports; simpl; try now rewrite andb_true_r.
    rewrite IH. rewrite <- andb_assoc. reflexivity. }
  rewrite G, E. reflexivity.
Qed.

(** slices are disjoint, consecutive and cover 0..size-1 *)
Theorem slices_partition k ms : flat_map coords (shaped_values k ms) = seq k (total ms).
Proof.
  revert k. induction ms as [|d ms IH]; intros k; auto.
  rewrite shaped_values_cons. cbn [flat_map]. rewrite IH, total_cons, seq_app. f_equal.
  simpl. destruct (is_scalar d) eqn:E; simpl.
  - now rewrite (scalar_size d E).
  - f_equal. lia.
Qed.

Lemma every_point_cuts ms v : length v = total ms -> exists parts, cut_as ms parts /\ concat parts = v.
Proof.
  revert v. induction ms as [|d ms IH]; intros v H.
  - destruct v; [|discriminate]. exists []. split; auto. constructor.
  - rewrite total_cons in H. destruct (IH (skipn (event_size d) v)) as (ps & Hc & Hv).
    { rewrite skipn_length. lia. }
    exists (firstn (event_size d) v :: ps). split.
    + constructor; auto. rewrite firstn_length. lia.
    + simpl. rewrite Hv. apply firstn_skipn.
Qed.

(** C15 *)
Lemma cut_total ms parts : cut_as ms parts -> length (concat parts) = total ms.
Proof. induction 1; simpl; auto. rewrite app_length, total_cons. lia. Qed.

Lemma cut_app (a b : list (dist K)) p q : cut_as a p -> cut_as b q -> cut_as (a ++ b) (p ++ q).
Proof. apply Forall2_app. Qed.

Lemma sum_log_probs_app (a b : list (dist K)) p q :
  cut_as a p -> sum_log_probs (a ++ b) (p ++ q) = xadd (sum_log_probs a p) (sum_log_probs b q).
Proof.
  induction 1 as [|x y l l' H H' IH]; simpl; [now rewrite xadd_0_l|].
  unfold sum_log_probs in *. simpl. now rewrite IH, xadd_assoc.
Qed.
Lemma all_supports_app (a b : list (dist K)) p q :
  cut_as a p -> all_supports (a ++ b) (p ++ q) = all_supports a p && all_supports b q.
Proof.
  induction 1 as [|x y l l' H H' IH]; simpl; auto.
  unfold all_supports in *. simpl. now rewrite IH, andb_assoc.
Qed.

(** replacing each marginal by a list of marginals that together behave like it *)
Lemma expand_ok (f : dist K -> list (dist K)) ms :
  (forall d, In d ms ->
     total (f d) = event_size d /\
     forall parts, cut_as (f d) parts ->
       log_prob d (concat parts) = sum_log_probs (f d) parts) ->
  forall v, length v = total ms ->
  forall parts, cut_as (flat_map f ms) parts -> concat parts = v ->
  exists parts', cut_as ms parts' /\ concat parts' = v /\
    sum_log_probs ms parts' = sum_log_probs (flat_map f ms) parts.
Proof.
  induction ms as [|d ms IH]; intros Hf v Hv parts Hc Hcat; simpl in *.
  - inversion Hc; subst. exists []. repeat split; auto.
  - apply Forall2_app_inv_l in Hc as (p & q & Hp & Hq & ->).
    rewrite concat_app in Hcat.
    destruct (Hf d (or_introl eq_refl)) as [Hsz Hlp].
    pose proof (cut_total _ _ Hp) as Lp. pose proof (cut_total _ _ Hq) as Lq.
    assert (length (concat q) = total ms).
    { rewrite <- Hcat, app_length, total_cons in Hv. lia. }
    destruct (IH (fun d' H' => Hf d' (or_intror H')) (concat q) H q Hq eq_refl)
      as (q' & Hq' & Hcq & E).
    exists (concat p :: q'). split; [constructor; auto; lia|]. split; [simpl; congruence|].
    rewrite sum_log_probs_app by auto. unfold sum_log_probs at 1. simpl.
    fold (sum_log_probs ms q'). rewrite E, Hlp by auto. reflexivity.
Qed.

Lemma expand_supp (f : dist K -> list (dist K)) ms :
  (forall d, In d ms ->
     total (f d) = event_size d /\
     forall parts, cut_as (f d) parts ->
       in_support d (concat parts) = all_supports (f d) parts) ->
  forall v, length v = total ms ->
  forall parts, cut_as (flat_map f ms) parts -> concat parts = v ->
  exists parts', cut_as ms parts' /\ concat parts' = v /\
    all_supports ms parts' = all_supports (flat_map f ms) parts.
Proof.
  induction ms as [|d ms IH]; intros Hf v Hv parts Hc Hcat; simpl in *.
  - inversion Hc; subst. exists []. repeat split; auto.
  - apply Forall2_app_inv_l in Hc as (p & q & Hp & Hq & ->).
    rewrite concat_app in Hcat.
    destruct (Hf d (or_introl eq_refl)) as [Hsz Hlp].
    pose proof (cut_total _ _ Hp) as Lp. pose proof (cut_total _ _ Hq) as Lq.
    assert (length (concat q) = total ms).
    { rewrite <- Hcat, app_length, total_cons in Hv. lia. }
    destruct (IH (fun d' H' => Hf d' (or_intror H')) (concat q) H q Hq eq_refl)
      as (q' & Hq' & Hcq & E).
    exists (concat p :: q'). split; [constructor; auto; lia|]. split; [simpl; congruence|].
    rewrite all_supports_app by auto. unfold all_supports at 1. simpl.
    fold (all_supports ms q'). rewrite E, Hlp by auto. reflexivity.
Qed.

Lemma total_flat_map (f : dist K -> list (dist K)) ms :
  (forall d, In d ms -> total (f d) = event_size d) -> total (flat_map f ms) = total ms.
Proof.
  induction ms as [|d ms IH]; intros H; simpl; auto.
  rewrite total_app, total_cons, IH by (intros; apply H; simpl; auto).
  rewrite H by (simpl; auto). reflexivity.
Qed.

Lemma single_total d : total [d] = event_size d.
Proof. unfold total; simpl; lia. Qed.

Lemma single_lp d parts : cut_as [d] parts -> log_prob d (concat parts) = sum_log_probs [d] parts.
Proof.
  intros H. inversion H as [|? p ? ps Hp Hr]; subst. inversion Hr; subst.
  unfold sum_log_probs. simpl. now rewrite app_nil_r, xadd_0_r.
Qed.
Lemma single_supp d parts : cut_as [d] parts -> in_support d (concat parts) = all_supports [d] parts.
Proof.
  intros H. inversion H as [|? p ? ps Hp Hr]; subst. inversion Hr; subst.
  unfold all_supports. simpl. now rewrite app_nil_r, andb_true_r.
Qed.

Lemma deep_ok d :
  total (flatten_deep d) = event_size d /\
  (forall parts, cut_as (flatten_deep d) parts ->
     log_prob d (concat parts) = sum_log_probs (flatten_deep d) parts).
Proof.
  induction d as [s lp su dr|ms s IH] using dist_ind'.
  - split; [apply single_total|apply single_lp].
  - rewrite Forall_forall in IH. split.
    + simpl. apply total_flat_map. intros d Hd. apply IH; auto.
    + intros parts Hc. simpl in Hc.
      destruct (expand_ok flatten_deep ms) with (v := concat parts) (parts := parts)
        as (p' & Hc' & Hcat & E); auto.
      { rewrite (cut_total _ _ Hc). apply total_flat_map. intros d Hd. apply IH; auto. }
      rewrite <- Hcat. rewrite joint_log_prob_spec by auto. exact E.
Qed.

Lemma deep_supp d :
  default_supports d ->
  forall parts, cut_as (flatten_deep d) parts ->
     in_support d (concat parts) = all_supports (flatten_deep d) parts.
Proof.
  induction d as [s lp su dr|ms s IH] using dist_ind'.
  - intros _. apply single_supp.
  - intros [-> Hd] parts Hc. rewrite Forall_forall in IH.
    assert (Hd' : forall d, In d ms -> default_supports d).
    { clear -Hd. induction ms; simpl in *; [tauto|]. destruct Hd. intros d [<-|H']; auto. }
    simpl in Hc.
    destruct (expand_supp flatten_deep ms) with (v := concat parts) (parts := parts)
      as (p' & Hc' & Hcat & E); auto.
    { intros d Hin. split; [apply deep_ok|]. apply IH; auto. }
    { rewrite (cut_total _ _ Hc). apply total_flat_map. intros d Hin. apply deep_ok. }
    rewrite <- Hcat. rewrite joint_support_spec by auto. exact E.
Qed.

Definition children d := match d with Joint ms _ => ms | _ => [d] end.

Lemma children_ok d :
  total (children d) = event_size d /\
  (forall parts, cut_as (children d) parts ->
     log_prob d (concat parts) = sum_log_probs (children d) parts).
Proof.
  destruct d as [s lp su dr|ms s].
  - split; [apply single_total|apply single_lp].
  - split; auto. intros. now apply joint_log_prob_spec.
Qed.
Lemma children_supp d : default_supports d ->
  (forall parts, cut_as (children d) parts ->
     in_support d (concat parts) = all_supports (children d) parts).
Proof.
  destruct d as [s lp su dr|ms s].
  - intros _. apply single_supp.
  - intros [-> _] parts. apply joint_support_spec.
Qed.

Lemma sum_log_probs_unique ms p q : cut_as ms p -> cut_as ms q -> concat p = concat q -> p = q.
Proof.
  intros Hp. revert q. induction Hp as [|d x ms p Hx Hp IH]; intros q Hq E; inversion Hq; subst; auto.
  simpl in E. assert (x = y).
  { rewrite <- (firstn_all x). rewrite <- (firstn_all y).
    replace (length y) with (length x) by congruence.
    apply (f_equal (firstn (length x))) in E.
    rewrite !firstn_app in E. replace (length x - length x) with 0 in E by lia.
    replace (length x - length y) with 0 in E by lia. simpl in E. now rewrite !app_nil_r in E. }
  subst y. apply app_inv_head in E. f_equal. auto.
Qed.

Theorem flatten_preserves_log_prob m ms s s' v :
  length v = total ms ->
  total (flatten m ms) = total ms /\
  log_prob (Joint (flatten m ms) s) v = log_prob (Joint ms s') v.
Proof.
  intros Hv. destruct m; simpl flatten.
  - split; reflexivity.
  - change (fun d => match d with Leaf _ _ _ _ => [d] | Joint ms' _ => ms' end) with children.
    assert (Ht : total (flat_map children ms) = total ms)
      by (apply total_flat_map; intros; apply children_ok).
    split; auto.
    destruct (every_point_cuts (flat_map children ms) v) as (parts & Hc & Hcat); [lia|].
    destruct (expand_ok children ms) with (v := v) (parts := parts) as (p' & Hc' & Hcat' & E); auto.
    { intros; apply children_ok. }
    rewrite <- Hcat at 1. rewrite <- Hcat'. rewrite !joint_log_prob_spec by auto. auto.
  - assert (Ht : total (flat_map flatten_deep ms) = total ms)
      by (apply total_flat_map; intros; apply deep_ok).
    split; auto.
    destruct (every_point_cuts (flat_map flatten_deep ms) v) as (parts & Hc & Hcat); [lia|].
    destruct (expand_ok flatten_deep ms) with (v := v) (parts := parts) as (p' & Hc' & Hcat' & E); auto.
    { intros; apply deep_ok. }
    rewrite <- Hcat at 1. rewrite <- Hcat'. rewrite !joint_log_prob_spec by auto. auto.
Qed.

Theorem flatten_preserves_support m ms v :
  length v = total ms -> Forall default_supports ms ->
  in_support (Joint (flatten m ms) None) v = in_support (Joint ms None) v.
Proof.
  intros Hv Hd. rewrite Forall_forall in Hd. destruct m; simpl flatten.
  - reflexivity.
  - change (fun d => match d with Leaf _ _ _ _ => [d] | Joint ms' _ => ms' end) with children.
    assert (Ht : total (flat_map children ms) = total ms)
      by (apply total_flat_map; intros; apply children_ok).
    destruct (every_point_cuts (flat_map children ms) v) as (parts & Hc & Hcat); [lia|].
    destruct (expand_supp children ms) with (v := v) (parts := parts) as (p' & Hc' & Hcat' & E); auto.
    { intros d Hin. split; [apply children_ok|apply children_supp; auto]. }
    rewrite <- Hcat at 1. rewrite <- Hcat'. rewrite !joint_support_spec by auto. auto.
  - assert (Ht : total (flat_map flatten_deep ms) = total ms)
      by (apply total_flat_map; intros; apply deep_ok).
    destruct (every_point_cuts (flat_map flatten_deep ms) v) as (parts & Hc & Hcat); [lia|].
    destruct (expand_supp flatten_deep ms) with (v := v) (parts := parts) as (p' & Hc' & Hcat' & E); auto.
    { intros d Hin. split; [apply deep_ok|apply deep_supp; auto]. }
    rewrite <- Hcat at 1. rewrite <- Hcat'. rewrite !joint_support_spec by auto. auto.
Qed.

Lemma flatten_deep_leaves ms d : In d (flatten Deep ms) -> exists s lp su dr, d = Leaf s lp su dr.
Proof.
  simpl. intros H. apply in_flat_map in H as (x & _ & H). revert d H.
  induction x as [s lp su dr|l s IH] using dist_ind'; simpl; intros d H.
  - destruct H as [<-|[]]; eauto.
  - apply in_flat_map in H as (y & Hy & H). rewrite Forall_forall in IH. eapply IH; eauto.
Qed.
End J.

Section Sampling.
Context {K : Type} (split_n : K -> nat -> list K).
Hypothesis split_n_length : forall k n, length (split_n k n) = n.

Lemma draws_sized_all (ms : list (dist K)) :
  fold_right and True (map draws_sized ms) -> forall d, In d ms -> draws_sized d.
Proof. induction ms; simpl; [tauto|]. intros [H1 H2] d [<-|H']; auto. Qed.

Lemma sample_cut : forall (d : dist K) key, draws_sized d -> length (sample split_n d key) = event_size d.
Proof.
  induction d as [s lp su dr|ms s IH] using dist_ind'; intros key H.
  - simpl in *. apply H.
  - simpl. simpl in H. pose proof (draws_sized_all _ H) as Hd. clear H.
    pose proof (split_n_length key (length ms)) as Hl.
    revert Hl. generalize (split_n key (length ms)) as ks.
    induction ms as [|m ms IHms]; intros ks Hl; simpl; auto.
    destruct ks as [|k ks]; [discriminate|]. simpl. inversion IH; subst.
    rewrite app_length, H1 by (apply Hd; simpl; auto). f_equal.
    apply IHms; auto. intros; apply Hd; simpl; auto.
Qed.

Theorem joint_sample_cut (ms : list (dist K)) s key :
  Forall draws_sized ms ->
  exists parts, sample split_n (Joint ms s) key = concat parts /\ cut_as ms parts
    /\ parts = map (fun p => sample split_n (fst p) (snd p)) (combine ms (split_n key (length ms))).
Proof.
  intros H. exists (map (fun p => sample split_n (fst p) (snd p)) (combine ms (split_n key (length ms)))).
  pose proof (split_n_length key (length ms)) as Hl. revert Hl. simpl.
  generalize (split_n key (length ms)) as ks.
  induction H as [|m ms Hm Hms IH]; intros ks Hl; simpl.
  - repeat split; auto. constructor.
  - destruct ks as [|k ks]; [discriminate|]. simpl. injection Hl as Hl.
    destruct (IH ks Hl) as (E & Hc & _). split; [now rewrite E|]. split; auto.
    constructor; auto. now apply sample_cut.
Qed.
End Sampling.

Section Lazy.
Context {K : Type}.
Implicit Types (ms : list (@marginal K)).

Lemma set_nth_length {A} (l : list A) i a : length (set_nth l i a) = length l.
Proof.
  unfold set_nth. rewrite app_length.
  pose proof (firstn_skipn i l) as E. apply (f_equal (@length A)) in E. rewrite app_length in E.
  destruct (skipn i l); simpl in *; lia.
Qed.

Lemma nth_error_set_nth {A} (l : list A) i j a :
  nth_error (set_nth l i a) j
  = if Nat.eqb i j then match nth_error l j with Some _ => Some a | None => None end else nth_error l j.
Proof.
  revert i j. induction l as [|x l IH]; intros i j.
  - unfold set_nth. rewrite firstn_nil, skipn_nil. simpl.
    destruct (Nat.eqb i j); destruct j; auto.
  - destruct i as [|i].
    + unfold set_nth. simpl. destruct j; auto.
    + change (set_nth (x :: l) (S i) a) with (x :: set_nth l i a). destruct j; simpl; auto.
Qed.

Definition kwargs_at (value : list X) (dep : list (string * nat)) :=
  map (fun p => (fst p, dyn_index value (snd p))) dep.

Definition resolved value (deps : dependencies) (i : nat) (m : @marginal K) : marginal :=
  match m with
  | Ready d => Ready d
  | Pending f => match assoc_nat deps i with
                 | Some dep => Ready (f (kwargs_at value dep))
                 | None => Pending f end
  end.

Lemma assoc_nat_In {A} (l : list (nat * A)) i a : assoc_nat l i = Some a -> In (i, a) l.
Proof.
  induction l as [|[k b] l IH]; simpl; [discriminate|].
  destruct (Nat.eqb_spec k i); [intros [= ->]; subst; auto | auto].
Qed.
Lemma assoc_nat_None {A} (l : list (nat * A)) i : assoc_nat l i = None <-> ~ In i (map fst l).
Proof.
  induction l as [|[k b] l IH]; simpl; [tauto|].
  destruct (Nat.eqb_spec k i); [split; [discriminate|intros H; exfalso; auto]|].
  rewrite IH. tauto.
Qed.

Lemma resolve_spec value deps : forall ms,
  NoDup (map fst deps) ->
  (forall i, In i (map fst deps) -> exists f, nth_error ms i = Some (Pending f)) ->
  exists ms', resolve value deps ms = Some ms' /\ length ms' = length ms
    /\ forall i, nth_error ms' i = option_map (resolved value deps i) (nth_error ms i).
Proof.
  unfold resolve. induction deps as [|[i dep] deps IH]; intros ms Hnd Hp.
  - exists ms. split; auto. split; auto. intros i. destruct (nth_error ms i) as [[|]|]; auto.
  - cbn [fold_left fst snd]. simpl in Hnd. inversion Hnd as [|? ? Hni Hnd']; subst.
    destruct (Hp i (or_introl eq_refl)) as (f & Hf). rewrite Hf.
    destruct (IH (set_nth ms i (Ready (f (kwargs_at value dep)))) Hnd') as (ms' & E & Hl & Hn).
    { intros j Hj. destruct (Hp j (or_intror Hj)) as (g & Hg). exists g.
      rewrite nth_error_set_nth. destruct (Nat.eqb_spec i j); auto. subst. tauto. }
    exists ms'. split; auto. split; [now rewrite Hl, set_nth_length|].
    intros j. rewrite Hn, nth_error_set_nth. destruct (Nat.eqb_spec i j) as [->|Hij].
    + rewrite Hf. simpl. now rewrite Nat.eqb_refl.
    + destruct (nth_error ms j) as [[d|g]|]; simpl; auto.
      destruct (Nat.eqb_spec i j); [congruence|reflexivity].
Qed.

Lemma all_ready_spec ms :
  (forall i m, nth_error ms i = Some m -> exists d, m = Ready d) ->
  exists ds, all_ready ms = Some ds /\ map Ready ds = ms.
Proof.
  induction ms as [|m ms IH]; intros H.
  - exists []. auto.
  - destruct (H 0 m eq_refl) as (d & ->). destruct IH as (ds & E & M).
    { intros i m Hm. apply (H (S i) m Hm). }
    exists (d :: ds). simpl. rewrite E. split; auto. simpl. now rewrite M.
Qed.

Lemma dyn_index_lt v j : j < length v -> dyn_index v j = [nth j v NaN].
Proof. intros. unfold dyn_index. do 2 f_equal. lia. Qed.

Lemma resolved_list value deps ms :
  deps_match ms deps (length value) ->
  exists ms', resolve value deps ms = Some ms' /\
    all_ready ms' = Some (map (fun p => conditional deps (snd p) (fst p) value)
                              (combine (seq 0 (length ms)) ms)).
Proof.
  intros (Hnd & Hiff & Hlt).
  destruct (resolve_spec value deps ms Hnd) as (ms' & E & Hl & Hn).
  { intros i Hi. now apply Hiff. }
  exists ms'. split; auto.
  assert (Hc : forall i m, nth_error ms i = Some m ->
            resolved value deps i m = Ready (conditional deps m i value)).
  { intros i m Hm. destruct m as [d|f]; simpl; auto.
    destruct (assoc_nat deps i) as [dep|] eqn:Ea.
    - f_equal. f_equal. apply map_ext_in. intros [k j] Hkj. simpl. f_equal. apply dyn_index_lt.
      apply (Hlt i dep k j); auto. now apply assoc_nat_In.
    - exfalso. apply assoc_nat_None in Ea. apply Ea. apply Hiff. eauto. }
  destruct (all_ready_spec ms') as (ds & Er & Em).
  { intros i m Hm. rewrite Hn in Hm. destruct (nth_error ms i) as [m0|] eqn:E0; simpl in Hm; [|discriminate].
    injection Hm as <-. rewrite (Hc i m0) by auto. eauto. }
  rewrite Er. f_equal.
  apply nth_error_ext with (A := dist K) || idtac.
  assert (Hds : length ds = length ms) by (rewrite <- Hl, <- Em, map_length; reflexivity).
  assert (Hnth : forall i, nth_error ds i
     = nth_error (map (fun p => conditional deps (snd p) (fst p) value) (combine (seq 0 (length ms)) ms)) i).
  { intros i. destruct (nth_error ms i) as [m|] eqn:E0.
    - assert (Hi : i < length ms) by (apply nth_error_Some; congruence).
      pose proof (Hn i) as Hni. rewrite E0 in Hni. simpl in Hni. rewrite (Hc i m) in Hni by auto.
      rewrite <- Em, nth_error_map in Hni.
      destruct (nth_error ds i) as [d|]; simpl in Hni; [|discriminate]. injection Hni as ->.
      rewrite nth_error_map.
      assert (Hcomb : nth_error (combine (seq 0 (length ms)) ms) i = Some (i, m)).
      { clear -E0. assert (G : forall k, nth_error (combine (seq k (length ms)) ms) i = Some (k + i, m)).
        { revert i E0. induction ms as [|x l IH]; intros i E0 k; [destruct i; discriminate|].
          destruct i as [|i]; simpl in *; [injection E0 as ->; do 2 f_equal; lia|].
          rewrite IH by auto. do 2 f_equal. lia. }
        apply G. }
      rewrite Hcomb. reflexivity.
    - apply nth_error_None in E0.
      assert (nth_error ds i = None) as -> by (apply nth_error_None; lia).
      symmetry. apply nth_error_None. rewrite map_length, combine_length, seq_length. lia. }
  clear -Hnth. revert Hnth. generalize (map (fun p => conditional deps (snd p) (fst p) value) (combine (seq 0 (length ms)) ms)) as l.
  induction ds as [|d ds IH]; intros [|x l] H; auto.
  - specialize (H 0). discriminate.
  - specialize (H 0). discriminate.
  - pose proof (H 0) as H0. injection H0 as ->. f_equal. apply IH. intros i. apply (H (S i)).
Qed.

Lemma lazy_slices_of_cut dsh ms : forall i pre parts post,
  lazy_cut dsh i ms parts ->
  map (take_slice (pre ++ concat parts ++ post)) (lazy_slices dsh i (length pre) ms) = parts.
Proof.
  induction ms as [|m ms IH]; intros i pre parts post H; destruct parts as [|p ps]; simpl in H; try tauto; auto.
  destruct H as [Hp Hps]. cbn [lazy_slices concat].
  assert (Hrest : map (take_slice (pre ++ (p ++ concat ps) ++ post))
                    (lazy_slices dsh (S i) (length pre + length p) ms) = ps).
  { rewrite <- app_length. rewrite <- (IH (S i) (pre ++ p) ps post) at 2; auto. now rewrite <- !app_assoc. }
  destruct (marginal_shape dsh i m) as [n|]; cbn [map take_slice].
  - subst n. f_equal; auto. rewrite <- app_assoc.
    replace (length pre + length p - length pre) with (length p) by lia. apply dyn_slice_app.
  - rewrite Hp in Hrest. f_equal; auto. destruct p as [|x [|]]; try discriminate. apply dyn_index_app.
Qed.

Lemma fold_xadd_combine {A} (f : A -> list X -> X) (l : list A) value (sl : list slice) acc :
  fold_left (fun acc p => xadd acc (f (fst p) (take_slice value (snd p)))) (combine l sl) acc
  = xadd acc (xsum (map (fun p => f (fst p) (snd p)) (combine l (map (take_slice value) sl)))).
Proof.
  revert sl acc. induction l as [|a l IH]; intros [|s sl] acc; simpl; try now rewrite xadd_0_r.
  rewrite IH. now rewrite xadd_assoc.
Qed.

Theorem lazy_log_prob_spec dsh ms deps parts :
  lazy_cut dsh 0 ms parts -> deps_match ms deps (length (concat parts)) ->
  lazy_log_prob dsh ms deps (concat parts) = Some (chain_rule deps ms parts).
Proof.
  intros Hc Hm. unfold lazy_log_prob.
  destruct (resolved_list (concat parts) deps ms Hm) as (ms' & -> & ->).
  f_equal. rewrite (fold_xadd_combine log_prob), xadd_0_l.
  pose proof (lazy_slices_of_cut dsh ms 0 [] parts [] Hc) as E. simpl app in E. simpl length in E.
  rewrite app_nil_r in E. rewrite E. unfold chain_rule.
  change (fold_right xadd (Fin 0%R)) with xsum. f_equal.
  clear. generalize 0 as k. generalize (concat parts) as v. revert parts.
  induction ms as [|m ms IH]; intros [|p ps] v k; auto.
  simpl. f_equal. apply IH.
Qed.

Lemma fold_andb_combine {A} (f : A -> list X -> bool) (l : list A) value (sl : list slice) acc :
  fold_left (fun acc p => acc && (f (fst p) (take_slice value (snd p)))) (combine l sl) acc
  = acc && (forallb (fun p => f (fst p) (snd p)) (combine l (map (take_slice value) sl))).
Proof.
  revert sl acc. induction l as [|a l IH]; intros [|s sl] acc; simpl; try now rewrite andb_true_r.
  rewrite IH. now rewrite andb_assoc.
Qed.

Theorem lazy_support_spec dsh ms deps parts :
  lazy_cut dsh 0 ms parts -> deps_match ms deps (length (concat parts)) ->
  lazy_support dsh ms deps (concat parts)
  = Some (forallb (fun p => in_support (conditional deps (fst (snd p)) (fst p) (concat parts)) (snd (snd p)))
                  (combine (seq 0 (length ms)) (combine ms parts))).
Proof.
  intros Hc Hm. unfold lazy_support.
  destruct (resolved_list (concat parts) deps ms Hm) as (ms' & -> & ->).
  f_equal. rewrite (fold_andb_combine in_support). cbn [andb].
  pose proof (lazy_slices_of_cut dsh ms 0 [] parts [] Hc) as E. simpl app in E. simpl length in E.
  rewrite app_nil_r in E. rewrite E.
  clear. generalize 0 as k. generalize (concat parts) as v. revert parts.
  induction ms as [|m ms IH]; intros [|p ps] v k; auto.
  simpl. f_equal. apply IH.
Qed.

(** sampling *)
Variable split : K -> K * K.
Variable split_n : K -> nat -> list K.

Lemma read_all_spec samples dep :
  (forall k j, In (k, j) dep -> exists x, nth_error samples j = Some (Some x)) ->
  read_all samples dep
  = Some (map (fun p => (fst p, match nth_error samples (snd p) with Some (Some x) => x | _ => [] end)) dep).
Proof.
  induction dep as [|[k j] dep IH]; intros H; simpl; auto.
  destruct (H k j (or_introl eq_refl)) as (x & Hx). rewrite Hx, IH; auto.
  intros; eapply H; right; eauto.
Qed.

Definition drawn_at (samples : list (option (list X))) (j : nat) : list X :=
  match nth_error samples j with Some (Some x) => x | _ => [] end.

Definition cond_s ms deps samples i : option (dist K) :=
  match nth_error ms i with
  | Some (Ready d) => Some d
  | Some (Pending f) =>
    match assoc_nat deps i with
    | Some dep => Some (f (map (fun p => (fst p, drawn_at samples (snd p))) dep))
    | None => None
    end
  | None => None
  end.

Fixpoint last_key (n : nat) (key : K) : K :=
  match n with 0 => key | S n' => last_key n' (fst (split key)) end.

Lemma subkeys_snoc n key :
  subkeys split (S n) key = subkeys split n key ++ [snd (split (last_key n key))].
Proof. revert key. induction n; intros; auto. simpl in *. f_equal. apply IHn. Qed.
Lemma last_key_S n key : last_key (S n) key = fst (split (last_key n key)).
Proof. revert key. induction n; intros; auto. simpl in *. apply IHn. Qed.
Lemma subkeys_length n key : length (subkeys split n key) = n.
Proof. revert key; induction n; simpl; auto. Qed.

(** what holds after the marginals [done] have been drawn *)
Definition inv ms deps key0 (done : list nat) (st : option lazy_state) : Prop :=
  exists samples, st = Some (last_key (length done) key0, samples)
    /\ length samples = length ms
    /\ (forall i, i < length ms -> ~ In i done -> nth_error samples i = Some None)
    /\ (forall t i, nth_error done t = Some i ->
          exists d k, cond_s ms deps samples i = Some d
            /\ nth_error (subkeys split (length done) key0) t = Some k
            /\ nth_error samples i = Some (Some (sample split_n d k))
            /\ (forall f dep, nth_error ms i = Some (Pending f) -> assoc_nat deps i = Some dep ->
                   forall a j, In (a, j) dep -> In j done)).

Lemma drawn_at_set samples i x j : i <> j -> drawn_at (set_nth samples i x) j = drawn_at samples j.
Proof.
  intros H. unfold drawn_at. rewrite nth_error_set_nth.
  destruct (Nat.eqb_spec i j); [congruence|reflexivity].
Qed.

Lemma cond_s_set ms deps samples i x j :
  (forall f dep, nth_error ms j = Some (Pending f) -> assoc_nat deps j = Some dep ->
     forall a b, In (a, b) dep -> b <> i) ->
  cond_s ms deps (set_nth samples i x) j = cond_s ms deps samples j.
Proof.
  intros H. unfold cond_s. destruct (nth_error ms j) as [[d|f]|] eqn:E; auto.
  destruct (assoc_nat deps j) as [dep|] eqn:Ea; auto. do 2 f_equal. apply map_ext_in.
  intros [a b] Hab. simpl. f_equal. apply drawn_at_set. intros ->. eapply H; eauto.
Qed.

Lemma inv_step ms deps key0 done st i d :
  inv ms deps key0 done st -> i < length ms -> ~ In i done ->
  (forall samples, st = Some (last_key (length done) key0, samples) ->
     cond_s ms deps samples i = Some d /\
     (forall f dep, nth_error ms i = Some (Pending f) -> assoc_nat deps i = Some dep ->
                   forall a j, In (a, j) dep -> In j done)) ->
  forall samples, st = Some (last_key (length done) key0, samples) ->
  inv ms deps key0 (done ++ [i])
      (Some (fst (split (last_key (length done) key0)),
             set_nth samples i (Some (sample split_n d (snd (split (last_key (length done) key0))))))).
Proof.
  intros (samples & -> & Hlen & Hun & Hdone) Hi Hni Hc samples' [= <-].
  destruct (Hc samples eq_refl) as [Hcd Hdep].
  assert (Hnotdep : forall j f dep, In j (done ++ [i]) -> nth_error ms j = Some (Pending f) ->
            assoc_nat deps j = Some dep -> forall a b, In (a, b) dep -> In b done).
  { intros j f dep Hj Hp Ha a b Hab. apply in_app_or in Hj as [Hj|[<-|[]]].
    - apply In_nth_error in Hj as (t & Ht). destruct (Hdone t j Ht) as (d' & k & _ & _ & _ & G). eapply G; eauto.
    - eapply Hdep; eauto. }
  exists (set_nth samples i (Some (sample split_n d (snd (split (last_key (length done) key0)))))).
  rewrite app_length. simpl length. replace (length done + 1) with (S (length done)) by lia.
  split; [now rewrite last_key_S|]. split; [now rewrite set_nth_length|]. split.
  - intros j Hj Hnj. rewrite nth_error_set_nth. destruct (Nat.eqb_spec i j) as [->|].
    + exfalso. apply Hnj. apply in_or_app. simpl; auto.
    + apply Hun; auto. intros H. apply Hnj. apply in_or_app; auto.
  - intros t j Ht. rewrite subkeys_snoc.
    assert (Hj : In j (done ++ [i])) by (eapply nth_error_In; eauto).
    assert (Hcs : forall x, cond_s ms deps (set_nth samples i x) j = cond_s ms deps samples j).
    { intros x. apply cond_s_set. intros f dep Hp Ha a b Hab ->. apply Hni. eapply Hnotdep; eauto. }
    rewrite Hcs.
    destruct (Nat.lt_ge_cases t (length done)) as [Hlt|Hge].
    + rewrite nth_error_app1 in Ht by auto.
      destruct (Hdone t j Ht) as (d' & k & Hd' & Hk & Hs & G). exists d', k.
      split; auto. split; [rewrite nth_error_app1; auto; now rewrite subkeys_length|].
      split.
      * rewrite nth_error_set_nth. destruct (Nat.eqb_spec i j) as [->|]; auto.
        exfalso. apply Hni. eapply nth_error_In; eauto.
      * intros. apply in_or_app. left. eapply G; eauto.
    + rewrite nth_error_app2 in Ht by auto. destruct (t - length done) as [|u] eqn:Eu; [|destruct u; discriminate].
      injection Ht as ->. exists d, (snd (split (last_key (length done) key0))).
      split; auto. split.
      * rewrite nth_error_app2 by (rewrite subkeys_length; auto). rewrite subkeys_length, Eu. reflexivity.
      * split.
        -- rewrite nth_error_set_nth, Nat.eqb_refl.
           destruct (nth_error samples j) eqn:E; auto. apply nth_error_None in E. lia.
        -- intros f dep Hp Ha a b Hab. apply in_or_app. left. eapply Hdep; eauto.
Qed.

Lemma inv_independent ms deps key0 l : forall done st,
  inv ms deps key0 done st -> NoDup (done ++ l) ->
  (forall i, In i l -> exists d, nth_error ms i = Some (Ready d)) ->
  inv ms deps key0 (done ++ l) (fold_left (draw_independent split_n split ms) l st).
Proof.
  induction l as [|i l IH]; intros done st Hinv Hnd Hr.
  - simpl. now rewrite app_nil_r.
  - simpl. destruct (Hr i (or_introl eq_refl)) as (d & Hd).
    replace (done ++ i :: l) with ((done ++ [i]) ++ l) by (now rewrite <- app_assoc).
    apply IH.
    + destruct Hinv as (samples & Est & Hrest) eqn:Einv. clear Einv.
      assert (Hi : i < length ms) by (apply nth_error_Some; congruence).
      assert (Hni : ~ In i done).
      { intros H. apply NoDup_remove_2 in Hnd. apply Hnd. apply in_or_app; auto. }
      pose proof (inv_step ms deps key0 done st i d (ex_intro _ samples (conj Est Hrest)) Hi Hni) as G.
      rewrite Est. unfold draw_independent. rewrite Hd.
      rewrite Est in G. destruct (split (last_key (length done) key0)) as [k1 k2] eqn:Es.
      apply G; auto. intros s' _. unfold cond_s. rewrite Hd. split; auto. intros f dep Hf. congruence.
    + now rewrite <- app_assoc.
    + intros j Hj. apply Hr. simpl; auto.
Qed.

Lemma inv_dependent ms deps key0 l : forall done st,
  inv ms deps key0 done st -> NoDup (done ++ l) -> (forall i, In i l -> i < length ms) ->
  (forall pre i post, l = pre ++ i :: post ->
        exists dep, assoc_nat deps i = Some dep
          /\ forall k j, In (k, j) dep -> In j (done ++ pre)) ->
  inv ms deps key0 (done ++ l) (fold_left (draw_dependent split_n split ms deps) l st).
Proof.
  induction l as [|i l IH]; intros done st Hinv Hnd Hlt Hdep.
  - simpl. now rewrite app_nil_r.
  - simpl.
    replace (done ++ i :: l) with ((done ++ [i]) ++ l) by (now rewrite <- app_assoc).
    apply IH.
    + destruct (Hdep [] i l eq_refl) as (dep & Ha & Hin). rewrite app_nil_r in Hin.
      destruct Hinv as (samples & Est & Hrest).
      assert (Hi : i < length ms) by (apply Hlt; simpl; auto).
      assert (Hni : ~ In i done).
      { intros H. apply NoDup_remove_2 in Hnd. apply Hnd. apply in_or_app; auto. }
      destruct (nth_error ms i) as [m|] eqn:Em; [|apply nth_error_None in Em; lia].
      assert (Hread : read_all samples dep
         = Some (map (fun p => (fst p, drawn_at samples (snd p))) dep)).
      { apply read_all_spec. intros k j Hkj. apply Hin in Hkj as Hj.
        destruct Hrest as (_ & _ & Hdone). apply In_nth_error in Hj as (t & Ht).
        destruct (Hdone t j Ht) as (d & kk & _ & _ & Hs & _). eauto. }
      set (d := match m with Ready d => d | Pending f => f (map (fun p => (fst p, drawn_at samples (snd p))) dep) end).
      pose proof (inv_step ms deps key0 done st i d (ex_intro _ samples (conj Est Hrest)) Hi Hni) as G.
      rewrite Est. unfold draw_dependent.
      rewrite Est in G. destruct (split (last_key (length done) key0)) as [k1 k2] eqn:Es.
      rewrite Ha, Hread, Em.
      assert (G' := G ltac:(intros s' [= <-]; unfold cond_s; rewrite Em, Ha; split;
                   [unfold d; destruct m; reflexivity | intros f dp _ [= <-]; intros; eapply Hin; eauto]) samples eq_refl).
      unfold d in G'. destruct m; exact G'.
    + now rewrite <- app_assoc.
    + intros j Hj. apply Hlt. simpl; auto.
    + intros pre j post ->. destruct (Hdep (i :: pre) j post eq_refl) as (dep & Ha & Hin).
      exists dep. split; auto. intros k b Hb. rewrite <- app_assoc. simpl. eapply Hin; eauto.
Qed.

Lemma all_drawn_spec (l : list (option (list X))) :
  (forall i, i < length l -> exists x, nth_error l i = Some (Some x)) ->
  all_drawn l = Some (map (fun o => match o with Some x => x | None => [] end) l).
Proof.
  induction l as [|o l IH]; intros H; auto.
  destruct (H 0 ltac:(simpl; lia)) as (x & Hx). injection Hx as ->. simpl. rewrite IH; auto.
  intros i Hi. apply (H (S i)). simpl; lia.
Qed.

Lemma NoDup_app_l {A} (a b : list A) : NoDup (a ++ b) -> NoDup a.
Proof.
  induction a as [|x a IH]; intros H; constructor; inversion H; subst; auto.
  intros Hx. apply H2. apply in_or_app; auto.
Qed.

Theorem lazy_sample_spec ms deps independent partial_order key0 :
  respects ms deps independent partial_order ->
  exists parts, lazy_sample split_n split ms deps partial_order independent key0 = Some (concat parts)
    /\ length parts = length ms
    /\ forall t i m, nth_error (independent ++ partial_order) t = Some i -> nth_error ms i = Some m ->
         exists k, nth_error (subkeys split (length ms) key0) t = Some k
           /\ nth i parts [] = sample split_n (conditional_on deps m i parts) k.
Proof.
  intros (Hperm & Hind & Hpo).
  assert (Hnd : NoDup (independent ++ partial_order)).
  { eapply Permutation_NoDup; [apply Permutation_sym; exact Hperm|apply seq_NoDup]. }
  assert (Hinv0 : inv ms deps key0 [] (Some (key0, map (fun _ => None) ms))).
  { exists (map (fun _ => None) ms). split; auto. split; [apply map_length|]. split.
    - intros i Hi _. rewrite nth_error_map. destruct (nth_error ms i) eqn:E; auto.
      apply nth_error_None in E. lia.
    - intros [|t] i H; discriminate. }
  apply inv_independent with (l := independent) in Hinv0; auto.
  2:{ simpl. eapply NoDup_app_l; eauto. }
  simpl in Hinv0.
  apply inv_dependent with (l := partial_order) in Hinv0; auto.
  2:{ intros i Hi. assert (H : In i (seq 0 (length ms))).
      { eapply Permutation_in; [exact Hperm|]. apply in_or_app; auto. }
      apply in_seq in H. lia. }
  destruct Hinv0 as (samples & Est & Hlen & _ & Hdone).
  unfold lazy_sample. cbv zeta. rewrite Est.
  assert (Hall : forall i, i < length ms -> exists t, nth_error (independent ++ partial_order) t = Some i).
  { intros i Hi. apply In_nth_error. eapply Permutation_in; [apply Permutation_sym; exact Hperm|].
    apply in_seq. lia. }
  rewrite all_drawn_spec.
  2:{ intros i Hi. rewrite Hlen in Hi. destruct (Hall i Hi) as (t & Ht).
      destruct (Hdone t i Ht) as (d & k & _ & _ & Hs & _). eauto. }
  exists (map (fun o => match o with Some x => x | None => [] end) samples).
  assert (Hdr : forall j, nth j (map (fun o => match o with Some x => x | None => [] end) samples) [] = drawn_at samples j).
  { intros j. unfold drawn_at. clear. revert j. induction samples as [|o l IH]; intros [|j]; simpl; auto. }
  split; auto. split; [now rewrite map_length|].
  intros t i m Ht Hm. destruct (Hdone t i Ht) as (d & k & Hc & Hk & Hs & _).
  apply Permutation_length in Hperm. rewrite seq_length in Hperm. rewrite Hperm in Hk.
  exists k. split; auto. rewrite Hdr. unfold drawn_at. rewrite Hs. f_equal.
  unfold cond_s in Hc. rewrite Hm in Hc. unfold conditional_on. destruct m as [d'|f].
  - congruence.
  - destruct (assoc_nat deps i) as [dep|]; [|discriminate]. injection Hc as <-. f_equal.
    apply map_ext. intros [a j]. simpl. now rewrite Hdr.
Qed.
End Lazy.

Section Mixture.
Open Scope R_scope.

Lemma map_safe l : map (fun a => if isneginf a then NInf else a) l = l.
Proof. induction l as [|a l IH]; simpl; auto. rewrite IH. destruct a; reflexivity. Qed.

Lemma wexp_add a b : fin_or_ninf a -> fin_or_ninf b -> wexp (xadd a b) = wexp a * wexp b.
Proof. destruct a, b; simpl; try tauto; intros; rewrite ?exp_plus; ring. Qed.
Lemma fin_or_ninf_add a b : fin_or_ninf a -> fin_or_ninf b -> fin_or_ninf (xadd a b).
Proof. destruct a, b; simpl; tauto. Qed.

Lemma component_good value c : good_component value c ->
  fin_or_ninf (component_log_prob true value c)
  /\ wexp (component_log_prob true value c) = weighted_density value c.
Proof.
  intros (Hs & Hl & Hv). unfold component_log_prob, weighted_density.
  assert (E : (if true && negb (c_validate c) then if c_supp c value then c_lp c value else NInf
               else c_lp c value) = if c_supp c value then c_lp c value else NInf).
  { destruct (c_validate c), (c_supp c value); simpl; auto. }
  rewrite E. destruct (c_supp c value).
  - split; [apply fin_or_ninf_add; auto|apply wexp_add; auto].
  - split; [apply fin_or_ninf_add; simpl; auto|]. rewrite wexp_add by (simpl; auto). simpl. ring.
Qed.

Theorem mixture_spec cs value :
  Forall (good_component value) cs ->
  mixture_log_prob true cs value = log_of (rsum (map (weighted_density value) cs)).
Proof.
  intros H. unfold mixture_log_prob. rewrite map_safe. rewrite lse1.
  - unfold weights_of. rewrite map_map. do 2 f_equal. apply map_ext_in.
    intros c Hc. rewrite Forall_forall in H. now apply component_good, H.
  - apply Forall_map. eapply Forall_impl; [|exact H]. intros c Hc. now apply component_good.
Qed.

Lemma weighted_density_nonneg value c : 0 <= weighted_density value c.
Proof.
  unfold weighted_density. destruct (c_supp c value); [|lra].
  apply Rmult_le_pos; apply wexp_nonneg.
Qed.
Lemma mixture_total_nonneg value cs : 0 <= rsum (map (weighted_density value) cs).
Proof. apply rsum_nonneg, Forall_map, Forall_forall. intros; apply weighted_density_nonneg. Qed.

Theorem mixture_neginf_iff cs value :
  Forall (good_component value) cs ->
  (mixture_log_prob true cs value = NInf <-> Forall (fun c => weighted_density value c = 0) cs).
Proof.
  intros H. rewrite mixture_spec by auto. pose proof (mixture_total_nonneg value cs) as Hn.
  rewrite <- log_of_zero. split.
  - intros E. apply log_of_inj in E; auto; [|lra].
    apply rsum_zero_nonneg in E; [now rewrite Forall_map in E|].
    apply Forall_map, Forall_forall. intros; apply weighted_density_nonneg.
  - intros E. f_equal. clear H Hn. induction E as [|c cs Hc Hcs IH]; simpl; auto. rewrite Hc, IH. ring.
Qed.

Theorem mixture_permutation b cs cs' value :
  Permutation cs cs' -> mixture_log_prob b cs value = mixture_log_prob b cs' value.
Proof.
  intros P. unfold mixture_log_prob. rewrite !map_safe. unfold logsumexp_where.
  rewrite !where_nonneginf_id, !logsumexp_filter_ninf. apply logsumexp_permutation.
  now apply Permutation_map.
Qed.

Lemma component_unmasked b value c : fin_or_ninf (c_log_scale c) -> fin_or_ninf (c_lp c value) ->
  b && negb (c_validate c) = false ->
  fin_or_ninf (component_log_prob b value c)
  /\ wexp (component_log_prob b value c) = wexp (c_log_scale c) * wexp (c_lp c value).
Proof.
  intros H1 H2 E. unfold component_log_prob. rewrite E.
  split; [apply fin_or_ninf_add; auto|apply wexp_add; auto].
Qed.

Theorem mixture_unmasked cs value :
  Forall (fun c => fin_or_ninf (c_log_scale c) /\ fin_or_ninf (c_lp c value)) cs ->
  mixture_log_prob false cs value
  = log_of (rsum (map (fun c => wexp (c_log_scale c) * wexp (c_lp c value)) cs)).
Proof.
  intros H. unfold mixture_log_prob. rewrite map_safe. rewrite lse1.
  - unfold weights_of. rewrite map_map. do 2 f_equal. apply map_ext_in.
    intros c Hc. rewrite Forall_forall in H. apply H in Hc as [H1 H2]. now apply component_unmasked.
  - apply Forall_map. eapply Forall_impl; [|exact H]. intros c [H1 H2]. now apply component_unmasked.
Qed.

(** moments *)
Lemma mixture_variance_gen cs mu :
  fold_right (fun c acc => let '(s, m, v) := c in exp s * v + acc) 0 cs
  + fold_right (fun c acc => let '(s, m, v) := c in exp s * ((m - mu) * (m - mu)) + acc) 0 cs
  = fold_right (fun c acc => let '(s, m, v) := c in exp s * (v + m * m) + acc) 0 cs
    - 2 * mu * mixture_mean cs
    + mu * mu * fold_right (fun c acc => let '(s, m, v) := c in exp s + acc) 0 cs.
Proof.
  unfold mixture_mean. induction cs as [|[[s m] v] cs IH]; simpl; [ring|]. lra.
Qed.

Theorem mixture_variance_spec cs :
  fold_right (fun c acc => let '(s, m, v) := c in exp s + acc) 0 cs = 1 ->
  mixture_variance cs
  = fold_right (fun c acc => let '(s, m, v) := c in exp s * (v + m * m) + acc) 0 cs
    - mixture_mean cs * mixture_mean cs.
Proof. intros H. unfold mixture_variance. rewrite mixture_variance_gen, H. ring. Qed.
End Mixture.
