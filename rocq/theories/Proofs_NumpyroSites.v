From Coq Require Import String Reals List Bool Permutation Arith Lia.
From Verif Require Import Model_X Spec_X Proofs_X Model_Joint Spec_Joint Proofs_Joint
     Model_Guru Spec_Guru Model_NumpyroSites Spec_NumpyroSites.
Import ListNotations.
Open Scope nat_scope.

Section P.
Context {K : Type}.
Variable handler : string -> dist K -> list X.
Variables (names : list string) (ms : list (@marginal K)) (deps : dependencies).

Let name i := nth i names ""%string.
Definition cond_v (V : nat -> list X) (i : nat) (m : @marginal K) : dist K :=
  match m with
  | Ready d => d
  | Pending f => f (map (fun p => (fst p, V (snd p)))
                        (match assoc_nat deps i with Some l => l | None => [] end))
  end.
Definition dummy : @marginal K := Ready (Joint [] None).
Definition site_v V i := mksite (name i) (cond_v V i (nth i ms dummy)) (V i).

Definition ready_at (l : list (@marginal K)) i := match nth_error l i with Some (Ready _) => true | _ => false end.

Definition site_inv (done : list nat) (st : option (list (site K) * list (slot K))) : Prop :=
  exists V slots, st = Some (map (site_v V) done, slots)
    /\ length slots = length ms
    /\ (forall i, In i done -> nth_error slots i = Some (Drawn (V i)) /\ V i = handler (name i) (s_dist (site_v V i)))
    /\ (forall i f, i < length ms -> ~ In i done -> nth_error ms i = Some (Pending f) ->
          nth_error slots i = Some (Waiting (name i) f))
    /\ (forall i f dep, In i done -> nth_error ms i = Some (Pending f) -> assoc_nat deps i = Some dep ->
          forall a j, In (a, j) dep -> In j done).

Lemma read_slots_spec (V : nat -> list X) slots dep :
  (forall a j, In (a, j) dep -> nth_error slots j = Some (@Drawn K (V j))) ->
  read_slots slots dep = Some (map (fun p => (fst p, V (snd p))) dep).
Proof.
  induction dep as [|[a j] dep IH]; intros H; simpl; auto.
  rewrite (H a j) by (simpl; auto). rewrite IH; auto. intros b k Hb. apply (H b k). simpl; auto.
Qed.

Lemma cond_v_ext V W i m :
  (forall f dep, m = Pending f -> assoc_nat deps i = Some dep -> forall a j, In (a, j) dep -> V j = W j) ->
  cond_v V i m = cond_v W i m.
Proof.
  intros H. destruct m as [d|f]; simpl; auto. destruct (assoc_nat deps i) as [dep|] eqn:E; auto.
  f_equal. apply map_ext_in. intros [a j] Hj. simpl. f_equal. eapply H; eauto.
Qed.

Lemma site_step done st i f dep :
  site_inv done st -> i < length ms -> ~ In i done -> nth_error ms i = Some (Pending f) ->
  assoc_nat deps i = Some dep -> (forall a j, In (a, j) dep -> In j done) ->
  site_inv (done ++ [i]) (declare_waiting handler deps st i).
Proof.
  intros (V & slots & -> & Hl & Hd & Hw & Hc) Hi Hni Hm Ha Hin.
  unfold declare_waiting. rewrite Ha.
  rewrite (read_slots_spec V) by (intros a j Haj; apply Hd; eauto).
  rewrite (Hw i f Hi Hni Hm).
  set (kw := map (fun p => (fst p, V (snd p))) dep).
  set (x := handler (name i) (f kw)).
  set (W := fun j => if Nat.eqb j i then x else V j).
  assert (HW : forall j, In j done -> W j = V j).
  { intros j Hj. unfold W. destruct (Nat.eqb_spec j i) as [->|]; tauto. }
  assert (HWi : W i = x) by (unfold W; now rewrite Nat.eqb_refl).
  assert (Hnth : nth i ms dummy = Pending f) by (now apply nth_error_nth).
  assert (Hkw : map (fun p => (fst p, W (snd p))) dep = kw).
  { apply map_ext_in. intros [a j] Haj. simpl. f_equal. apply HW. eauto. }
  assert (Hs : forall j, In j done -> site_v W j = site_v V j).
  { intros j Hj. unfold site_v. rewrite (HW j Hj). f_equal. apply cond_v_ext.
    intros g dp Hg Hdp a k Hk. apply HW. destruct (nth_error ms j) as [m|] eqn:E.
    - apply (nth_error_nth _ _ dummy) in E as E'. rewrite E' in Hg. subst m. eapply Hc; eauto.
    - exfalso. rewrite nth_overflow in Hg by (now apply nth_error_None). discriminate. }
  assert (Hsi : site_v W i = mksite (name i) (f kw) x).
  { unfold site_v. rewrite HWi, Hnth. simpl. rewrite Ha, Hkw. reflexivity. }
  exists W, (set_nth slots i (Drawn x)). split; [|split; [|split; [|split]]].
  - f_equal. f_equal. rewrite map_app. simpl. rewrite Hsi. f_equal.
    apply map_ext_in. intros j Hj. symmetry. auto.
  - rewrite set_nth_length. exact Hl.
  - intros j Hj. apply in_app_or in Hj. rewrite nth_error_set_nth. destruct Hj as [Hj|[<-|[]]].
    + destruct (Nat.eqb_spec i j) as [->|]; [tauto|]. rewrite (HW j Hj), (Hs j Hj). auto.
    + rewrite Nat.eqb_refl, Hsi, HWi, (Hw i f Hi Hni Hm). auto.
  - intros j g Hj Hnj Hg. rewrite nth_error_set_nth. destruct (Nat.eqb_spec i j) as [->|].
    + exfalso. apply Hnj. apply in_or_app. simpl; auto.
    + apply Hw; auto. intros H. apply Hnj. apply in_or_app; auto.
  - intros j g dp Hj Hg Hdp a k Hk. apply in_or_app. left. apply in_app_or in Hj as [Hj|[<-|[]]].
    + eapply Hc; eauto.
    + replace dp with dep in Hk by congruence. eauto.
Qed.

Lemma site_loop l : forall done st,
  site_inv done st -> NoDup (done ++ l) ->
  (forall i, In i l -> i < length ms /\ exists f, nth_error ms i = Some (Pending f)) ->
  (forall pre i post, l = pre ++ i :: post ->
        exists dep, assoc_nat deps i = Some dep /\ forall k j, In (k, j) dep -> In j (done ++ pre)) ->
  site_inv (done ++ l) (fold_left (declare_waiting handler deps) l st).
Proof.
  induction l as [|i l IH]; intros done st Hinv Hnd Hl Hdep.
  - simpl. now rewrite app_nil_r.
  - simpl. replace (done ++ i :: l) with ((done ++ [i]) ++ l) by (now rewrite <- app_assoc).
    destruct (Hl i) as (Hi & f & Hf); [simpl; auto|].
    destruct (Hdep [] i l eq_refl) as (dep & Ha & Hin). rewrite app_nil_r in Hin.
    apply IH.
    + eapply site_step; eauto. intros H. apply NoDup_remove_2 in Hnd. apply Hnd. apply in_or_app; auto.
    + now rewrite <- app_assoc.
    + intros j Hj. apply Hl. simpl; auto.
    + intros pre j post ->. destruct (Hdep (i :: pre) j post eq_refl) as (dep' & Ha' & Hin').
      exists dep'. split; auto. intros k b Hb. rewrite <- app_assoc. simpl. eapply Hin'; eauto.
Qed.

Lemma drawn_values_spec (V : nat -> list X) (slots : list (slot K)) k :
  (forall i, i < length slots -> nth_error slots i = Some (Drawn (V (k + i)))) ->
  drawn_values slots = Some (map V (seq k (length slots))).
Proof.
  revert k. induction slots as [|s l IH]; intros k H; auto.
  pose proof (H 0 ltac:(simpl; lia)) as H0. simpl in H0. injection H0 as ->. rewrite Nat.add_0_r.
  simpl. rewrite (IH (S k)); auto. intros i Hi. specialize (H (S i) ltac:(simpl; lia)). simpl in H.
  rewrite H. do 3 f_equal. lia.
Qed.
End P.

Section First.
Context {K : Type}.
Variable handler : string -> dist K -> list X.

Lemma declare_ready_spec (ms : list (@marginal K)) : forall names, length names = length ms ->
  let V i := match nth_error ms i with Some (Ready d) => handler (nth i names ""%string) d | _ => [] end in
  exists slots,
    declare_ready handler (combine names ms)
    = (map (fun i => mksite (nth i names ""%string) (match nth i ms dummy with Ready d => d | Pending f => f [] end) (V i))
           (filter (ready_at ms) (seq 0 (length ms))), slots)
    /\ length slots = length ms
    /\ (forall i d, nth_error ms i = Some (Ready d) -> nth_error slots i = Some (Drawn (V i)))
    /\ (forall i f, nth_error ms i = Some (Pending f) -> nth_error slots i = Some (Waiting (nth i names ""%string) f)).
Proof.
  induction ms as [|m ms IH]; intros [|n names] Hl; try discriminate.
  - exists []. simpl. repeat split; auto; intros [|i] ? ?; discriminate.
  - simpl in Hl. injection Hl as Hl. destruct (IH names Hl) as (slots & E & Hs & Hr & Hp).
    assert (Hsh : forall g : nat -> site K,
       map g (filter (ready_at (m :: ms)) (seq 1 (length ms)))
       = map (fun i => g (S i)) (filter (ready_at ms) (seq 0 (length ms)))).
    { intros g. rewrite <- seq_shift. generalize (seq 0 (length ms)) as l. clear.
      induction l as [|i l IH]; auto. cbn [map filter]. change (ready_at (m :: ms) (S i)) with (ready_at ms i).
      destruct (ready_at ms i); cbn [map]; rewrite IH; auto. }
    cbn [combine declare_ready]. destruct m as [d|f]; rewrite E.
    + exists (Drawn (handler n d) :: slots). split; [|split; [|split]].
      * cbn [length seq filter ready_at nth_error map]. f_equal. f_equal.
        symmetry. apply (Hsh (fun i => mksite (nth i (n :: names) ""%string)
            (match nth i (Ready d :: ms) dummy with Ready d => d | Pending f => f [] end)
            match nth_error (Ready d :: ms) i with Some (Ready d) => handler (nth i (n :: names) ""%string) d | _ => [] end)).
      * simpl; congruence.
      * intros [|i] d' H; simpl in H |- *; auto. eapply Hr; eauto.
      * intros [|i] g H; simpl in H |- *; [discriminate|]. eapply Hp; eauto.
    + exists (Waiting n f :: slots). split; [|split; [|split]].
      * cbn [length seq filter ready_at nth_error map]. f_equal.
        symmetry. apply (Hsh (fun i => mksite (nth i (n :: names) ""%string)
            (match nth i (Pending f :: ms) dummy with Ready d => d | Pending f => f [] end)
            match nth_error (Pending f :: ms) i with Some (Ready d) => handler (nth i (n :: names) ""%string) d | _ => [] end)).
      * simpl; congruence.
      * intros [|i] d' H; simpl in H |- *; [discriminate|]. eapply Hr; eauto.
      * intros [|i] g H; simpl in H |- *; [congruence|]. eapply Hp; eauto.
Qed.

Lemma sites_final (r : prior K) :
  length (r_sorted r) = length (r_marginals r) ->
  deps_match (r_marginals r) (r_deps r) (length (r_marginals r)) ->
  respects (r_marginals r) (r_deps r) (independent_of (r_order r) (length (r_marginals r))) (r_order r) ->
  exists V,
    numpyro_sites handler r
    = Some (map (site_v (r_sorted r) (r_marginals r) (r_deps r) V)
                (independent_of (r_order r) (length (r_marginals r)) ++ r_order r),
            map V (seq 0 (length (r_marginals r))))
    /\ (forall i, i < length (r_marginals r) ->
          V i = handler (nth i (r_sorted r) ""%string) (s_dist (site_v (r_sorted r) (r_marginals r) (r_deps r) V i))).
Proof.
  intros Hl (Hdn & Hdp & _) (Hperm & Hind & Hpo).
  set (ms := r_marginals r) in *. set (names := r_sorted r) in *. set (deps := r_deps r) in *.
  set (ind := independent_of (r_order r) (length ms)) in *.
  destruct (declare_ready_spec ms names Hl) as (slots & E & Hsl & Hr & Hp).
  assert (Hord : forall i, In i (r_order r) -> i < length ms /\ exists f, nth_error ms i = Some (Pending f)).
  { intros i Hi. split.
    - assert (H : In i (seq 0 (length ms))) by (eapply Permutation_in; [exact Hperm|apply in_or_app; auto]).
      apply in_seq in H. lia.
    - apply in_split in Hi as (pre & post & Hi). destruct (Hpo _ _ _ Hi) as (dep & Ha & _).
      apply assoc_nat_In in Ha. apply Hdp. change i with (fst (i, dep)). now apply in_map. }
  assert (Hfilter : filter (ready_at ms) (seq 0 (length ms)) = ind).
  { unfold ind, independent_of. apply filter_ext_in. intros i Hi. apply in_seq in Hi.
    unfold ready_at. destruct (existsb (Nat.eqb i) (r_order r)) eqn:Eo.
    - apply existsb_exists in Eo as (j & Hj & Ej). apply Nat.eqb_eq in Ej. subst j.
      destruct (Hord i Hj) as (_ & f & ->). reflexivity.
    - destruct (Hind i) as (d & ->); auto. unfold ind, independent_of. apply filter_In.
      split; [apply in_seq; lia|now rewrite Eo]. }
  rewrite Hfilter in E.
  assert (Hnd : NoDup (ind ++ r_order r)).
  { eapply Permutation_NoDup; [apply Permutation_sym; exact Hperm|apply seq_NoDup]. }
  assert (Hinv : site_inv handler names ms deps ind (Some (declare_ready handler (combine names ms)))).
  { rewrite E. eexists. exists slots. split; [|split; [exact Hsl|split; [|split]]].
    - f_equal. f_equal. apply map_ext_in. intros i Hi. unfold site_v.
      instantiate (1 := fun i => match nth_error ms i with Some (Ready d) => handler (nth i names ""%string) d | _ => [] end).
      destruct (Hind i Hi) as (d & Hd). rewrite (nth_error_nth _ _ dummy Hd). simpl. now rewrite Hd.
    - intros i Hi. destruct (Hind i Hi) as (d & Hd). split; [eapply Hr; eauto|].
      unfold site_v. simpl. rewrite (nth_error_nth _ _ dummy Hd). simpl. now rewrite Hd.
    - intros i f Hi Hni Hf. auto.
    - intros i f dep Hi Hf. destruct (Hind i Hi) as (d & Hd). congruence. }
  apply site_loop with (l := r_order r) in Hinv; auto.
  destruct Hinv as (V & slots' & Est & Hl' & Hd' & _).
  exists V. unfold numpyro_sites. fold names ms deps. rewrite Est.
  assert (Hall : forall i, i < length ms -> In i (ind ++ r_order r)).
  { intros i Hi. eapply Permutation_in; [apply Permutation_sym; exact Hperm|]. apply in_seq. lia. }
  rewrite (drawn_values_spec V slots' 0).
  - rewrite Hl'. split; auto. intros i Hi. apply Hd'. auto.
  - intros i Hi. apply Hd'. apply Hall. now rewrite <- Hl'.
Qed.
End First.

Lemma nth_concat_singletons (parts : list (list X)) :
  List.Forall (fun p => length p = 1) parts ->
  forall j, j < length parts -> [nth j (concat parts) NaN] = nth j parts [].
Proof.
  induction 1 as [|p parts Hp _ IH]; intros j Hj; simpl in Hj; [lia|].
  destruct p as [|x [|? ?]]; try discriminate. destruct j as [|j]; simpl; auto. apply IH. lia.
Qed.

Lemma chain_rule_sites {K} (names : list string) (ms : list (@marginal K)) deps (V : nat -> list X) :
  deps_match ms deps (length ms) ->
  List.Forall (fun p => length p = 1) (map V (seq 0 (length ms))) ->
  chain_rule deps ms (map V (seq 0 (length ms)))
  = xsum (map (fun i => log_prob (s_dist (site_v names ms deps V i)) (V i)) (seq 0 (length ms))).
Proof.
  intros (_ & _ & Hd) H1. unfold chain_rule. change (fold_right xadd (Fin 0%R)) with xsum. f_equal.
  set (parts := map V (seq 0 (length ms))) in *.
  assert (Hlen : length parts = length ms) by (unfold parts; now rewrite map_length, seq_length).
  assert (Hnth : forall j, j < length ms -> [nth j (concat parts) NaN] = V j).
  { intros j Hj. rewrite nth_concat_singletons by (auto; lia). unfold parts.
    rewrite nth_indep with (d' := V 0) by (rewrite map_length, seq_length; lia).
    rewrite map_nth, seq_nth by lia. reflexivity. }
  assert (Hc : forall i, i < length ms ->
     conditional deps (nth i ms dummy) i (concat parts) = cond_v deps V i (nth i ms dummy)).
  { intros i Hi. unfold conditional, cond_v. destruct (nth i ms dummy) as [d|f]; auto. f_equal.
    apply map_ext_in. intros [a j] Hj. simpl. f_equal. apply Hnth.
    destruct (assoc_nat deps i) as [dep|] eqn:Ea; [|contradiction].
    apply assoc_nat_In in Ea. eapply Hd; eauto. }
  assert (Hgen : forall (l : list (@marginal K)) k (v : list X),
     (forall i, i < length l -> conditional deps (nth i l dummy) (k + i) v = cond_v deps V (k + i) (nth i l dummy)) ->
     map (fun p => log_prob (conditional deps (fst (snd p)) (fst p) v) (snd (snd p)))
         (combine (seq k (length l)) (combine l (map V (seq k (length l)))))
     = map (fun i => log_prob (cond_v deps V i (nth (i - k) l dummy)) (V i)) (seq k (length l))).
  { induction l as [|m l IH]; intros k v H; auto. cbn [length seq map combine]. f_equal.
    - simpl. pose proof (H 0 ltac:(simpl; lia)) as H0. rewrite Nat.add_0_r in H0. simpl in H0.
      rewrite H0, Nat.sub_diag. reflexivity.
    - rewrite IH.
      + apply map_ext_in. intros i Hi. apply in_seq in Hi. replace (i - k) with (S (i - S k)) by lia. reflexivity.
      + intros i Hi. specialize (H (S i) ltac:(simpl; lia)). simpl in H.
        now rewrite Nat.add_succ_r in H. }
  etransitivity; [exact (Hgen ms 0 (concat parts) Hc)|].
  apply map_ext. intros i. rewrite Nat.sub_0_r. reflexivity.
Qed.

(** every index of a parameter is the position of a sampled parameter *)
Lemma dset_values (d : list (string * nat)) k i p : In p (dset d k i) -> In p d \/ snd p = i.
Proof.
  induction d as [|[k' a] d IH]; simpl.
  - intros [<-|[]]; auto.
  - destruct (String.eqb k' k); simpl; intros [<-|H]; auto. apply IH in H as [H|H]; auto.
Qed.
Lemma dget_values (d : list (string * nat)) k i : dget d k = Some i -> exists p, In p d /\ snd p = i.
Proof.
  induction d as [|[k' a] d IH]; simpl; [discriminate|]. destruct (String.eqb k' k).
  - intros E. injection E as ->. exists (k', i). auto.
  - intros H. apply IH in H as (p & Hp & E). eauto.
Qed.

Lemma alias_values n (al : list (string * string)) : forall idx idx',
  fold_left (fun idx (p : string * string) =>
               match idx with
               | None => None
               | Some idx => match dget idx (snd p) with Some i => Some (dset idx (fst p) i) | None => None end
               end) al (Some idx) = Some idx' ->
  (forall p : string * nat, In p idx -> snd p < n) -> forall p, In p idx' -> snd p < n.
Proof.
  induction al as [|[a t] al IH]; intros idx idx' H Hb; simpl in H.
  - injection H as <-. auto.
  - destruct (dget idx t) as [i|] eqn:E.
    + eapply IH; [exact H|]. intros p Hp. apply dset_values in Hp as [Hp|<-]; auto.
      apply dget_values in E as (q & Hq & <-). auto.
    + exfalso. clear -H. induction al as [|q al IH]; simpl in H; [discriminate|auto].
Qed.

Lemma map_opt_length {A B} (f : A -> option B) l l' : map_opt f l = Some l' -> length l' = length l.
Proof.
  revert l'. induction l as [|a l IH]; intros l' H; simpl in H.
  - injection H as <-. auto.
  - destruct (f a); [|discriminate]. destruct (map_opt f l); [|discriminate]. injection H as <-. simpl. auto.
Qed.

Lemma index_bound {K} iter (params : list (string * pvalue K)) self_consts r :
  classify_model_parameters iter self_consts params = Some r ->
  forall p, In p (r_index r) -> snd p < length (r_marginals r).
Proof.
  unfold classify_model_parameters. destruct (classify iter params) as [[cs vs al lz order]|]; [|discriminate].
  set (names := sorted (map fst vs)). destruct (fold_left _ al _) as [idx|] eqn:Ei; [|discriminate].
  destruct (map_opt (dget vs) names) as [[|m ms]|] eqn:Em; [discriminate| |discriminate].
  apply map_opt_length in Em.
  assert (Hb : forall p, In p idx -> snd p < length (m :: ms)).
  { rewrite Em. eapply alias_values; [exact Ei|]. intros [a i] Hp. apply in_combine_r in Hp.
    apply in_seq in Hp. simpl. lia. }
  destruct order as [|o order].
  - destruct (forallb _ _); [|discriminate]. intros E. injection E as <-. exact Hb.
  - destruct (map_opt _ lz); [|discriminate]. destruct (map_opt _ (o :: order)); [|discriminate].
    destruct (Nat.eqb _ _); [|discriminate]. intros E. injection E as <-. exact Hb.
Qed.
