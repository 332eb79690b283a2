(** Lemmas for C132. *)
From Coq Require Import String Ascii List Arith Bool ZArith Lia.
From Verif Require Import Model_X Model_Settings Model_NutsSettings Spec_NutsSettings.
Import ListNotations.
Open Scope string_scope.

Lemma find_key_in k d v : find_key k d = Some v -> In (k, v) d.
Proof.
  induction d as [|(k', w) d IH]; [discriminate|]. cbn. destruct (String.eqb_spec k' k) as [->|_].
  - intros H. injection H as <-. left. reflexivity.
  - intros H. right. apply IH. exact H.
Qed.
Lemma find_key_iff k d v : NoDup (map fst d) -> (find_key k d = Some v <-> In (k, v) d).
Proof.
  intros Hnd. split; [apply find_key_in|]. induction d as [|(k', w) d IH]; [intros []|].
  cbn in Hnd. inversion Hnd as [|? ? Hn Hnd']; subst. intros [E|H]; cbn.
  - injection E as -> ->. rewrite String.eqb_refl. reflexivity.
  - destruct (String.eqb_spec k' k) as [->|_]; [|apply IH; assumption].
    exfalso. apply Hn. apply (in_map fst) in H. exact H.
Qed.
Lemma find_key_none k d : find_key k d = None <-> forall v, ~ In (k, v) d.
Proof.
  induction d as [|(k', w) d IH]; [cbn; tauto|]. cbn. destruct (String.eqb_spec k' k) as [->|Hne].
  - split; [discriminate|]. intros H. exfalso. apply (H w). left. reflexivity.
  - rewrite IH. split; intros H v; [intros [E|Hin]; [congruence|exact (H v Hin)]|intros Hin; apply (H v); right; exact Hin].
Qed.
Lemma in_without k k' v d : In (k', v) (without k d) <-> In (k', v) d /\ k' <> k.
Proof.
  unfold without. rewrite filter_In. cbn [fst]. destruct (String.eqb_spec k' k); cbn; split; intros [H1 H2]; split; auto; congruence.
Qed.
Lemma without_nodup k d : NoDup (map fst d) -> NoDup (map fst (without k d)).
Proof.
  induction d as [|(k', v) d IH]; intros H; [exact H|]. cbn in H. inversion H as [|? ? Hn Hnd]; subst. cbn [without filter fst].
  destruct (negb (String.eqb k' k)); [|apply IH; exact Hnd]. cbn [map fst]. constructor; [|apply IH; exact Hnd].
  intros Hin. apply Hn. apply in_map_iff in Hin. destruct Hin as ((k2, v2) & E & Hin). cbn in E. subst k2.
  apply filter_In in Hin. destruct Hin as [Hin _]. apply (in_map fst) in Hin. exact Hin.
Qed.
Lemma existsb_key k d : existsb (fun kv : string * json => String.eqb (fst kv) k) d = true <-> exists v, In (k, v) d.
Proof.
  rewrite existsb_exists. split.
  - intros ((k', v) & H & E). apply String.eqb_eq in E. cbn in E. subst k'. eauto.
  - intros (v & H). exists (k, v). split; [exact H|apply String.eqb_refl].
Qed.
Lemma forallb_keys (ok : string -> bool) d :
  forallb (fun kv : string * json => ok (fst kv)) d = true <-> forall k v, In (k, v) d -> ok k = true.
Proof.
  rewrite forallb_forall. split.
  - intros H k v Hin. exact (H (k, v) Hin).
  - intros H (k, v) Hin. exact (H k v Hin).
Qed.
Lemma tuples_some l : (exists t, tuples l = Some t) <-> Forall iterable l.
Proof.
  induction l as [|v l IH]; [split; [constructor|exists []; reflexivity]|]. cbn [tuples].
  assert (Hv : (exists a, tuple_of v = Some a) <-> iterable v).
  { unfold iterable, tuple_of. destruct v; split; intros H; try (destruct H; discriminate); eauto;
      try (destruct H as [[? H]|[[? H]|[? H]]]; discriminate). }
  split.
  - intros (t & H). destruct (tuple_of v) as [a|]; [|discriminate]. destruct (tuples l) as [b|]; [|discriminate].
    constructor; [apply Hv; eauto|apply IH; eauto].
  - intros H. inversion H as [|? ? H1 H2]; subst. apply Hv in H1. apply IH in H2. destruct H1 as [a ->], H2 as [b ->]. eauto.
Qed.
Lemma tuples_lists ls : tuples (map JList ls) = Some ls.
Proof. induction ls as [|l ls IH]; [reflexivity|]. cbn. rewrite IH. reflexivity. Qed.

(** the two sections of the file *)
Definition section_is (file : json) (s : string) (d : dict) : Prop :=
  (exists sections, file = JObj sections /\ In (s, JObj d) sections) /\ NoDup (map fst d) /\
  forall key v, in_section file s key v <-> In (key, v) d.
Lemma has_section_is file s : json_object file -> has_section file s -> exists d, section_is file s d.
Proof.
  intros (secs & -> & Hnd & Hsub) (secs' & d & E & Hs). injection E as <-. exists d.
  split; [exists secs; auto|]. split; [eapply Hsub; exact Hs|]. intros key v. unfold in_section. split.
  - intros (secs' & d' & E & H1 & H2). injection E as <-. apply (find_key_iff s secs _ Hnd) in H1.
    apply (find_key_iff s secs _ Hnd) in Hs. rewrite Hs in H1. injection H1 as <-. exact H2.
  - intros H. exists secs, d. auto.
Qed.
Lemma driver_sections nuts_ok mcmc_ok nd file k m : json_object file -> section_is file "kernel" k -> section_is file "mcmc" m ->
  driver nuts_ok mcmc_ok nd file =
  match call_nuts nuts_ok k, call_mcmc mcmc_ok nd m with Some n, Some (a, r) => Some (Calls n a r) | _, _ => None end.
Proof.
  intros (secs & -> & Hnd & _) ((s1 & E1 & S1) & _) ((s2 & E2 & S2) & _). injection E1 as <-. injection E2 as <-. cbn [driver].
  rewrite (proj2 (find_key_iff "kernel" secs _ Hnd) S1).
  assert (F2 : find_key "mcmc" (without "kernel" secs) = Some (JObj m)).
  { apply find_key_iff; [apply without_nodup; exact Hnd|]. apply in_without. split; [exact S2|discriminate]. }
  rewrite F2. reflexivity.
Qed.
Lemma driver_has_sections nuts_ok mcmc_ok nd file c : driver nuts_ok mcmc_ok nd file = Some c ->
  has_section file "kernel" /\ has_section file "mcmc".
Proof.
  destruct file as [| | | | | |secs]; try discriminate. cbn [driver].
  destruct (find_key "kernel" secs) as [[| | | | | |k]|] eqn:Ek; try discriminate.
  destruct (find_key "mcmc" (without "kernel" secs)) as [[| | | | | |m]|] eqn:Em; try discriminate.
  apply find_key_in in Ek. apply find_key_in in Em. apply in_without in Em. destruct Em as [Em _]. intros _.
  split; [exists secs, k|exists secs, m]; auto.
Qed.

Lemma call_nuts_some nuts_ok k n : call_nuts nuts_ok k = Some n ->
  exists d, dense_arg (find_key "dense_mass" k) = Some d /\
    n = ("dense_mass", d) :: map (fun kv => (fst kv, AJson (snd kv))) (without "dense_mass" k).
Proof.
  unfold call_nuts. destruct (dense_arg _) as [d|]; [|discriminate]. destruct (forallb _ _); [|discriminate].
  intros H. injection H as <-. eauto.
Qed.
Lemma call_nuts_iff nuts_ok k : NoDup (map fst k) ->
  ((exists n, call_nuts nuts_ok k = Some n) <->
   (forall key v, In (key, v) k -> key = "dense_mass" \/ nuts_ok key = true) /\
   (forall l, In ("dense_mass", JList l) k -> Forall iterable l)).
Proof.
  intros Hnd. unfold call_nuts. 
  assert (Hd : (exists d, dense_arg (find_key "dense_mass" k) = Some d) <-> (forall l, In ("dense_mass", JList l) k -> Forall iterable l)).
  { split.
    - intros (d & H) l Hl. apply (find_key_iff _ k _ Hnd) in Hl. rewrite Hl in H. cbn in H.
      apply tuples_some. destruct (tuples l); [eauto|discriminate].
    - intros H. destruct (find_key "dense_mass" k) as [v|] eqn:E; [|eexists; reflexivity].
      apply find_key_in in E. destruct v; try (eexists; reflexivity). specialize (H _ E). apply tuples_some in H.
      destruct H as [t Ht]. cbn. rewrite Ht. eexists; reflexivity. }
  assert (Hf : forallb (fun kv => nuts_ok (fst kv)) (without "dense_mass" k) = true <->
               forall key v, In (key, v) k -> key = "dense_mass" \/ nuts_ok key = true).
  { rewrite forallb_keys. split.
    - intros H key v Hin. destruct (String.eqb_spec key "dense_mass"); [left; assumption|right]. apply (H key v). apply in_without. auto.
    - intros H key v Hin. apply in_without in Hin. destruct Hin as [Hin Hne]. destruct (H key v Hin); [contradiction|assumption]. }
  rewrite <- Hd, <- Hf. destruct (dense_arg (find_key "dense_mass" k)) as [d|].
  - destruct (forallb _ _); split; eauto; [intros [? H]; discriminate|intros [H _]; discriminate].
  - split; [intros [? H]; discriminate|intros [_ [? H]]; discriminate].
Qed.

Lemma int_value_count v n : int_value v = Some n <-> a_count v n.
Proof.
  unfold a_count. destruct v; cbn; split; intros H; try discriminate; try (destruct H as [H|(? & H & _)]; discriminate).
  - injection H as <-. right. eauto.
  - destruct H as [H|(b' & H & ->)]; [discriminate|]. injection H as <-. reflexivity.
  - injection H as <-. left. reflexivity.
  - destruct H as [H|(b' & H & _)]; [injection H as <-; reflexivity|discriminate].
Qed.
Definition batch_of (nd : nat) (method : json) (n : Z) : Z :=
  if (1 <? nd)%nat then Z.min n (Z.of_nat nd)
  else if is_text method "vectorized" then n else Z.min n (Z.of_nat nd).
Lemma is_text_iff v s : is_text v s = true <-> v = JStr s.
Proof. destruct v; cbn; split; intros H; try discriminate; [apply String.eqb_eq in H; congruence|injection H as ->; apply String.eqb_refl]. Qed.
Lemma plan_some nd m meth n b : NoDup (map fst m) ->
  (plan nd m = Some (meth, n, b) <->
   exists given v, In ("chain_method", given) m /\
     (In ("num_chains", v) m \/ (forall w, ~ In ("num_chains", w) m) /\ v = JInt 1) /\ a_count v n /\
     b = batch_of nd given n /\ b <> 0%Z /\
     meth = if (b =? 1)%Z then JStr "sequential" else if (1 <? nd)%nat then JStr "parallel" else given).
Proof.
  intros Hnd. unfold plan.
  assert (Hv : forall v, (In ("num_chains", v) m \/ (forall w, ~ In ("num_chains", w) m) /\ v = JInt 1) <->
    v = match find_key "num_chains" m with Some v => v | None => JInt 1 end).
  { intros v. destruct (find_key "num_chains" m) as [w|] eqn:E.
    - pose proof (find_key_in _ _ _ E) as Hin. split.
      + intros [H|[H _]]; [|exfalso; exact (H w Hin)]. apply (find_key_iff _ m _ Hnd) in H. congruence.
      + intros ->. left. exact Hin.
    - rewrite find_key_none in E. split; [intros [H|[_ H]]; [exfalso; exact (E v H)|exact H]|auto]. }
  assert (Hm : forall given, (if negb (is_text given "parallel") && (1 <? nd)%nat then JStr "parallel" else given) =
     if (1 <? nd)%nat then JStr "parallel" else given).
  { intros g. destruct (1 <? nd)%nat; rewrite ?andb_false_r, ?andb_true_r; [|reflexivity].
    destruct (is_text g "parallel") eqn:E; [|reflexivity]. apply is_text_iff in E. rewrite E. reflexivity. }
  destruct (find_key "chain_method" m) as [g|] eqn:Eg.
  2:{ split; [discriminate|]. intros (g & v & H & _). rewrite find_key_none in Eg. exfalso. exact (Eg g H). }
  rewrite Hm. clear Hm.
  assert (Hb : forall z, (if is_text (if (1 <? nd)%nat then JStr "parallel" else g) "vectorized" then z else Z.min z (Z.of_nat nd)) = batch_of nd g z).
  { intros z. unfold batch_of. destruct (1 <? nd)%nat; reflexivity. }
  split.
  - destruct (int_value _) as [z|] eqn:Ez; [|discriminate]. rewrite Hb. destruct (Z.eqb_spec (batch_of nd g z) 0) as [|Hb0]; [discriminate|].
    intros H. injection H as <- <- <-. exists g, (match find_key "num_chains" m with Some v => v | None => JInt 1 end).
    split; [apply find_key_in; exact Eg|]. split; [apply Hv; reflexivity|]. split; [apply int_value_count; exact Ez|]. auto.
  - intros (g' & v & Hg & Hn & Hc & -> & Hb0 & ->). apply (find_key_iff _ m _ Hnd) in Hg. assert (g' = g) by congruence. subst g'.
    apply Hv in Hn. rewrite <- Hn. apply int_value_count in Hc. rewrite Hc, Hb. apply Z.eqb_neq in Hb0. rewrite Hb0. reflexivity.
Qed.
Lemma call_mcmc_some mcmc_ok nd m a r : call_mcmc mcmc_ok nd m = Some (a, r) <->
  exists meth n b, plan nd m = Some (meth, n, b) /\ r = run_list n b /\
    a = ("num_chains", AJson (JInt b)) :: ("chain_method", AJson meth)
        :: map (fun kv => (fst kv, AJson (snd kv))) (without "num_chains" (without "chain_method" m)) /\
    (forall key v, In (key, v) m -> key = "chain_method" \/ key = "num_chains" \/ mcmc_ok key = true) /\
    (exists v, In ("num_warmup", v) m) /\ (exists v, In ("num_samples", v) m).
Proof.
  unfold call_mcmc.
  assert (Hf : forallb (fun kv => mcmc_ok (fst kv)) (without "num_chains" (without "chain_method" m)) = true <->
    forall key v, In (key, v) m -> key = "chain_method" \/ key = "num_chains" \/ mcmc_ok key = true).
  { rewrite forallb_keys. split.
    - intros H key v Hin. destruct (String.eqb_spec key "chain_method"); [auto|]. destruct (String.eqb_spec key "num_chains"); [auto|].
      right. right. apply (H key v). rewrite !in_without. auto.
    - intros H key v Hin. rewrite !in_without in Hin. destruct Hin as [[Hin H1] H2]. destruct (H key v Hin) as [|[|]]; auto; contradiction. }
  assert (He : forall k, k <> "chain_method" -> k <> "num_chains" ->
    (existsb (fun kv => String.eqb (fst kv) k) (without "num_chains" (without "chain_method" m)) = true <-> exists v, In (k, v) m)).
  { intros k H1 H2. rewrite existsb_key. split; intros (v & H); exists v; [rewrite !in_without in H; tauto|rewrite !in_without; auto]. }
  pose proof (He "num_warmup" ltac:(discriminate) ltac:(discriminate)) as H1.
  pose proof (He "num_samples" ltac:(discriminate) ltac:(discriminate)) as H2. clear He.
  destruct (plan nd m) as [[[meth n] b]|].
  - split.
    + intros H. destruct (forallb _ _ && _ && _) eqn:E; [|discriminate]. injection H as <- <-.
      apply andb_prop in E. destruct E as [E E2]. apply andb_prop in E. destruct E as [E0 E1].
      exists meth, n, b. repeat split; auto; [apply Hf; exact E0|apply H1; exact E1|apply H2; exact E2].
    + intros (meth' & n' & b' & E & -> & -> & X0 & X1 & X2). injection E as <- <- <-.
      apply Hf in X0. apply H1 in X1. apply H2 in X2. rewrite X0, X1, X2. reflexivity.
  - split; [discriminate|]. intros (? & ? & ? & H & _). discriminate.
Qed.
Lemma run_list_sum n b : (1 <= b <= n)%Z -> fold_right Z.add 0%Z (run_list n b) = n.
Proof.
  intros H. unfold run_list. rewrite fold_right_app.
  assert (Hrep : forall x k y, fold_right Z.add y (repeat x k) = (x * Z.of_nat k + y)%Z).
  { intros x k y. induction k as [|k IH]; [cbn; lia|]. cbn [repeat fold_right]. rewrite IH. lia. }
  rewrite Hrep. assert (0 <= n / b)%Z by (apply Z.div_pos; lia). rewrite Z2Nat.id by assumption.
  pose proof (Z.div_mod n b ltac:(lia)) as Hdm. pose proof (Z.mod_pos_bound n b ltac:(lia)).
  destruct (Z.ltb_spec 0 (n - n / b * b)) as [Hlt|Hge]; cbn [fold_right]; lia.
Qed.
Lemma run_list_bounds n b x : (1 <= b <= n)%Z -> In x (run_list n b) -> (1 <= x <= b)%Z.
Proof.
  intros H Hin. unfold run_list in Hin. apply in_app_or in Hin. destruct Hin as [Hin|Hin].
  - apply repeat_spec in Hin. lia.
  - pose proof (Z.div_mod n b ltac:(lia)) as Hdm. pose proof (Z.mod_pos_bound n b ltac:(lia)).
    destruct (Z.ltb_spec 0 (n - n / b * b)) as [Hlt|Hge]; [|destruct Hin]. destruct Hin as [<-|[]]. lia.
Qed.
