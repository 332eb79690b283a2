From Coq Require Import String Reals List Bool Arith Lia Sorting Permutation Relations.
From Verif Require Import Model_X Model_Joint Spec_Joint Proofs_Joint Model_Graph Spec_Graph Proofs_Graph
     Model_Guru Spec_Guru.
Import ListNotations.
Open Scope nat_scope.

(** ** dictionaries *)
Section Dict.
Context {A : Type}.
Implicit Types d e : list (string * A).

Lemma dget_In d k a : dget d k = Some a -> In (k, a) d.
Proof.
  induction d as [|[k' a'] d IH]; simpl; [discriminate|].
  destruct (String.eqb_spec k' k) as [->|]; [intros E; injection E as ->; auto|auto].
Qed.
Lemma dget_None d k : dget d k = None <-> ~ In k (map fst d).
Proof.
  induction d as [|[k' a'] d IH]; simpl; [tauto|].
  destruct (String.eqb_spec k' k) as [->|Hn]; [split; [discriminate|tauto]|].
  rewrite IH. split; tauto.
Qed.
Lemma In_dget d k a : NoDup (map fst d) -> In (k, a) d -> dget d k = Some a.
Proof.
  induction d as [|[k' a'] d IH]; simpl; [tauto|]. intros Hn [E|H].
  - injection E as -> ->. now rewrite String.eqb_refl.
  - inversion Hn as [|? ? H1 H2]; subst. destruct (String.eqb_spec k' k) as [->|]; auto.
    exfalso. apply H1. change k with (fst (k, a)). now apply in_map.
Qed.
Lemma dget_iff d k a : NoDup (map fst d) -> (dget d k = Some a <-> In (k, a) d).
Proof. intros H. split; [apply dget_In|now apply In_dget]. Qed.
Lemma dget_set d k a k' : dget (dset d k a) k' = if String.eqb k k' then Some a else dget d k'.
Proof.
  induction d as [|[k0 a0] d IH]; simpl; auto.
  destruct (String.eqb_spec k0 k) as [->|Hn]; simpl.
  - destruct (String.eqb_spec k k'); auto.
  - rewrite IH. destruct (String.eqb_spec k0 k') as [->|]; auto.
    destruct (String.eqb_spec k k'); congruence.
Qed.
Lemma dset_fresh d k a : ~ In k (map fst d) -> dset d k a = d ++ [(k, a)].
Proof.
  induction d as [|[k0 a0] d IH]; simpl; intros H; auto.
  destruct (String.eqb_spec k0 k) as [->|Hn]; [tauto|]. rewrite IH; tauto.
Qed.
Lemma dset_keys d k a : map fst (dset d k a) = if din d k then map fst d else map fst d ++ [k].
Proof.
  unfold din. induction d as [|[k0 a0] d IH]; simpl; auto.
  destruct (String.eqb_spec k0 k) as [->|Hn]; auto. simpl. rewrite IH.
  destruct (dget d k); auto.
Qed.
Lemma din_iff d k : din d k = true <-> In k (map fst d).
Proof.
  unfold din. destruct (dget d k) eqn:E.
  - split; auto. intros _. apply dget_In in E. change k with (fst (k, a)). now apply in_map.
  - apply dget_None in E. split; [discriminate|tauto].
Qed.
Lemma NoDup_snoc {B} (l : list B) x : NoDup l -> ~ In x l -> NoDup (l ++ [x]).
Proof.
  intros H Hx. induction H as [|y l Hy H IH]; simpl.
  - repeat constructor. intros [].
  - constructor; [|apply IH; simpl in Hx; tauto]. rewrite in_app_iff. simpl in *. intuition congruence.
Qed.
Lemma dset_NoDup d k a : NoDup (map fst d) -> NoDup (map fst (dset d k a)).
Proof.
  intros H. rewrite dset_keys. destruct (din d k) eqn:E; auto.
  apply NoDup_snoc; auto. rewrite <- din_iff. congruence.
Qed.
Lemma dmerge_get e : forall d k,
  dget (dmerge d e) k = match dget (rev e) k with Some a => Some a | None => dget d k end.
Proof.
  unfold dmerge. induction e as [|[k0 a0] e IH]; intros d k; auto.
  cbn [fold_left fst snd rev]. rewrite IH, dget_set.
  assert (Happ : forall l, dget (l ++ [(k0, a0)]) k
     = match dget l k with Some a => Some a | None => if String.eqb k0 k then Some a0 else None end).
  { induction l as [|[k1 a1] l IHl]; simpl; auto. destruct (String.eqb k1 k); auto. }
  rewrite Happ. destruct (dget (rev e) k); auto. destruct (String.eqb k0 k); auto.
Qed.
End Dict.

(** ** sorting *)
Lemma insert_perm x l : Permutation (insert x l) (x :: l).
Proof.
  induction l as [|y l IH]; simpl; auto. destruct (String.leb x y); auto.
  rewrite IH. apply perm_swap.
Qed.
Lemma sorted_perm l : Permutation (sorted l) l.
Proof. induction l; simpl; auto. rewrite insert_perm. auto. Qed.
Lemma insert_sorted x l : Sorted str_le l -> Sorted str_le (insert x l).
Proof.
  induction 1 as [|y l H IH Hd]; simpl; [repeat constructor|].
  destruct (String.leb x y) eqn:E.
  - constructor; [constructor; auto|]. constructor. exact E.
  - constructor; auto. assert (Hyx : String.leb y x = true).
    { destruct (String.leb_total x y) as [H'|H']; congruence. }
    destruct l as [|z l]; simpl; [constructor; exact Hyx|].
    destruct (String.leb x z); constructor; try exact Hyx.
    now inversion Hd.
Qed.
Lemma sorted_sorted l : Sorted str_le (sorted l).
Proof. induction l; simpl; [constructor|]. now apply insert_sorted. Qed.

Lemma index_of_nth l x i : index_of l x = Some i -> nth_error l i = Some x.
Proof.
  revert i. induction l as [|y l IH]; simpl; [discriminate|]. intros i.
  destruct (String.eqb_spec y x) as [->|]; [intros E; injection E as <-; reflexivity|].
  destruct (index_of l x) as [j|]; simpl; [|discriminate]. intros E. injection E as <-. simpl. auto.
Qed.
Lemma nth_index_of l x i : NoDup l -> nth_error l i = Some x -> index_of l x = Some i.
Proof.
  intros Hn. revert i. induction Hn as [|y l Hy Hn IH]; intros i H; [destruct i; discriminate|].
  simpl. destruct i as [|i]; simpl in H.
  - injection H as ->. now rewrite String.eqb_refl.
  - destruct (String.eqb_spec y x) as [->|]; [exfalso; apply Hy; eapply nth_error_In; eauto|].
    now rewrite (IH i H).
Qed.
Lemma index_of_In l x : In x l -> exists i, index_of l x = Some i.
Proof.
  induction l as [|y l IH]; simpl; [tauto|]. intros H.
  destruct (String.eqb_spec y x); eauto. destruct H as [|H]; [congruence|].
  destruct (IH H) as [i ->]. simpl. eauto.
Qed.

Lemma map_opt_nth {A B} (f : A -> option B) l r : map_opt f l = Some r ->
  forall i a, nth_error l i = Some a -> exists b, nth_error r i = Some b /\ f a = Some b.
Proof.
  revert r. induction l as [|x l IH]; intros r; simpl.
  - intros _ [|i] a; discriminate.
  - destruct (f x) as [b|] eqn:E; [|discriminate]. destruct (map_opt f l) as [r'|]; [|discriminate].
    intros E'. injection E' as <-. intros [|i] a H; simpl in *.
    + injection H as <-. eauto.
    + eapply IH; eauto.
Qed.
Lemma map_opt_length {A B} (f : A -> option B) l r : map_opt f l = Some r -> length r = length l.
Proof.
  revert r. induction l as [|x l IH]; intros r; simpl; [intros E; injection E as <-; auto|].
  destruct (f x), (map_opt f l); try discriminate. intros E; injection E as <-. simpl. auto.
Qed.
Lemma map_opt_In {A B} (f : A -> option B) l r b : map_opt f l = Some r -> In b r ->
  exists a, In a l /\ f a = Some b.
Proof.
  revert r. induction l as [|x l IH]; intros r; simpl; [intros E; injection E as <-; intros []|].
  destruct (f x) as [b'|] eqn:Ex; [|discriminate]. destruct (map_opt f l) as [r'|]; [|discriminate].
  intros E; injection E as <-. intros [<-|H]; eauto. destruct (IH _ eq_refl H) as (a & ? & ?); eauto.
Qed.
Lemma map_opt_In' {A B} (f : A -> option B) l r a : map_opt f l = Some r -> In a l ->
  exists b, In b r /\ f a = Some b.
Proof.
  intros H Ha. apply In_nth_error in Ha as (i & Hi). destruct (map_opt_nth f l r H i a Hi) as (b & H1 & H2).
  exists b. split; auto. eapply nth_error_In; eauto.
Qed.

Section Classify.
Context {K : Type}.
Implicit Types params : list (string * pvalue K).

Definition const_of (p : string * pvalue K) : list (string * option X) :=
  match snd p with VNone => [(fst p, None)] | VNum x => [(fst p, Some x)] | _ => [] end.
Definition var_of (p : string * pvalue K) : list (string * @marginal K) :=
  match snd p with VDist d => [(fst p, Ready d)] | VLazy f _ => [(fst p, Pending f)] | _ => [] end.
Definition lazy_of (p : string * pvalue K) : list (string * list (string * string)) :=
  match snd p with VLazy _ args => [(fst p, args)] | _ => [] end.
Definition root_of (p : string * pvalue K) : list string :=
  match snd p with VDist _ => [fst p] | _ => [] end.
Definition edges_of (p : string * pvalue K) : list (string * string) :=
  match snd p with VLazy _ args => map (fun a => (snd a, fst p)) args | _ => [] end.
Definition is_other (p : string * pvalue K) : bool := match snd p with VOther => true | _ => false end.
Definition add_edges (g : graph) (es : list (string * string)) : graph :=
  fold_left (fun g e => graph_add g (fst e) (snd e)) es g.

Lemma pass1_spec params : forall cs vs lz g rs,
  NoDup (map fst params) ->
  (forall n, In n (map fst params) -> ~ In n (map fst cs) /\ ~ In n (map fst vs) /\ ~ In n (map fst lz)) ->
  fold_left pass1_step params (Some (mkpass1 cs vs lz g rs))
  = if existsb is_other params then None
    else Some (mkpass1 (cs ++ flat_map const_of params) (vs ++ flat_map var_of params)
                       (lz ++ flat_map lazy_of params) (add_edges g (flat_map edges_of params))
                       (rs ++ flat_map root_of params)).
Proof.
  induction params as [|[n v] params IH]; intros cs vs lz g rs Hn Hf.
  - simpl. now rewrite !app_nil_r.
  - inversion Hn as [|? ? H1 H2]; subst. destruct (Hf n) as (F1 & F2 & F3); [now left|].
    assert (Hrest : forall m, In m (map fst params) ->
       m <> n /\ ~ In m (map fst cs) /\ ~ In m (map fst vs) /\ ~ In m (map fst lz)).
    { intros m Hm. split; [intros ->; auto|]. apply Hf. now right. }
    destruct v; cbn [fold_left pass1_step]; cbn [existsb is_other snd orb flat_map const_of var_of lazy_of edges_of root_of fst app].
    + rewrite dset_fresh by auto. rewrite IH; auto.
      * rewrite <- app_assoc. reflexivity.
      * intros m Hm. destruct (Hrest m Hm) as (A & B & C & D). rewrite map_app, in_app_iff. simpl. intuition.
    + rewrite dset_fresh by auto. rewrite IH; auto.
      * rewrite <- app_assoc. reflexivity.
      * intros m Hm. destruct (Hrest m Hm) as (A & B & C & D). rewrite map_app, in_app_iff. simpl. intuition.
    + rewrite dset_fresh by auto. rewrite IH; auto.
      * rewrite <- !app_assoc. reflexivity.
      * intros m Hm. destruct (Hrest m Hm) as (A & B & C & D). rewrite map_app, in_app_iff. simpl. intuition.
    + rewrite !dset_fresh by auto. rewrite IH; auto.
      * rewrite <- !app_assoc. unfold add_edges. rewrite fold_left_app.
        replace (fold_left (fun g0 e => graph_add g0 (fst e) (snd e)) (map (fun a => (snd a, n)) args) g)
          with (fold_left (fun g0 a => graph_add g0 (snd a) n) args g); auto.
        clear. revert g. induction args as [|a args IH]; intros g; simpl; auto.
      * intros m Hm. destruct (Hrest m Hm) as (A & B & C & D). rewrite !map_app, !in_app_iff. simpl. intuition.
    + rewrite IH; auto. intros m Hm. apply Hrest; auto.
    + clear. assert (H : forall l, fold_left (@pass1_step K) l None = None).
      { induction l as [|p l IH]; simpl; auto. } apply H.
Qed.

(** keys of the parts *)
Lemma const_of_In params n c : In (n, c) (flat_map const_of params) <-> given_constant params n c.
Proof.
  rewrite in_flat_map. unfold given_constant, const_of. split.
  - intros ([m v] & H & Hc). destruct v; simpl in Hc; try tauto; destruct Hc as [E|[]]; injection E as <- <-; eauto.
  - intros [[H ->]|(x & H & ->)]; eexists; (split; [exact H|]); simpl; auto.
Qed.
Lemma var_of_In params n m : In (n, m) (flat_map var_of params) <-> sampled params n m.
Proof.
  rewrite in_flat_map. unfold sampled, var_of. split.
  - intros ([k v] & H & Hc). destruct v; simpl in Hc; try tauto; destruct Hc as [E|[]]; injection E as <- <-; eauto.
  - intros [(d & H & ->)|(f & args & H & ->)]; eexists; (split; [exact H|]); simpl; auto.
Qed.
Lemma lazy_of_In params n args : In (n, args) (flat_map lazy_of params) <-> exists f, In (n, VLazy f args) params.
Proof.
  rewrite in_flat_map. unfold lazy_of. split.
  - intros ([k v] & H & Hc). destruct v; simpl in Hc; try tauto; destruct Hc as [E|[]]; injection E as <- <-; eauto.
  - intros (f & H). eexists; (split; [exact H|]); simpl; auto.
Qed.
Lemma root_of_In params n : In n (flat_map root_of params) <-> exists d, In (n, VDist d) params.
Proof.
  rewrite in_flat_map. unfold root_of. split.
  - intros ([k v] & H & Hc). destruct v; simpl in Hc; try tauto; destruct Hc as [<-|[]]; eauto.
  - intros (f & H). eexists; (split; [exact H|]); simpl; auto.
Qed.
Lemma edges_of_In params dep n : In (dep, n) (flat_map edges_of params) <-> needs params n dep.
Proof.
  rewrite in_flat_map. unfold edges_of, needs. split.
  - intros ([k v] & H & Hc). destruct v; simpl in Hc; try tauto.
    apply in_map_iff in Hc as ([a b] & E & Hc). injection E as <- <-. eauto 6.
  - intros (f & args & k & H & Hk). eexists; (split; [exact H|]). simpl. apply in_map_iff. exists (k, dep). auto.
Qed.

Lemma flat_keys_NoDup {B} (h : string * pvalue K -> list (string * B)) params :
  (forall p, h p = [] \/ exists b, h p = [(fst p, b)]) ->
  NoDup (map fst params) -> NoDup (map fst (flat_map h params)).
Proof.
  intros Hh. induction params as [|p params IH]; simpl; intros H; [constructor|].
  inversion H as [|? ? H1 H2]; subst. rewrite map_app.
  assert (Hsub : forall n, In n (map fst (flat_map h params)) -> In n (map fst params)).
  { intros n Hn. apply in_map_iff in Hn as ([a b] & <- & Hn). apply in_flat_map in Hn as (q & Hq & Hn).
    destruct (Hh q) as [E|(b' & E)]; rewrite E in Hn; [destruct Hn|]. destruct Hn as [E'|[]].
    injection E' as <- <-. simpl; now apply in_map. }
  destruct (Hh p) as [E|(b & E)]; rewrite E; simpl; auto. constructor; auto.
Qed.
Lemma const_keys params : NoDup (map fst params) -> NoDup (map fst (flat_map const_of params)).
Proof. apply flat_keys_NoDup. intros [n v]. unfold const_of. destruct v; simpl; eauto. Qed.
Lemma var_keys params : NoDup (map fst params) -> NoDup (map fst (flat_map var_of params)).
Proof. apply flat_keys_NoDup. intros [n v]. unfold var_of. destruct v; simpl; eauto. Qed.
Lemma lazy_keys params : NoDup (map fst params) -> NoDup (map fst (flat_map lazy_of params)).
Proof. apply flat_keys_NoDup. intros [n v]. unfold lazy_of. destruct v; simpl; eauto. Qed.

Lemma same_entry params n v v' : NoDup (map fst params) -> In (n, v) params -> In (n, v') params -> v = v'.
Proof. intros Hn H H'. apply In_dget in H; auto. apply In_dget in H'; auto. congruence. Qed.

(** ** the dependency graph *)
Lemma graph_add_spec g u v : NoDup (map fst g) ->
  NoDup (map fst (graph_add g u v))
  /\ forall a b, edge (graph_add g u v) a b <-> edge g a b \/ (a = u /\ b = v).
Proof.
  intros Hn. unfold graph_add. set (s := match dget g u with Some s => s | None => [] end).
  set (s' := if mem v s then s else s ++ [v]).
  assert (Hn' : NoDup (map fst (dset g u s'))) by now apply dset_NoDup.
  split; auto. intros a b. unfold edge.
  assert (Hs' : forall x, In x s' <-> In x s \/ x = v).
  { intros x. unfold s'. destruct (mem v s) eqn:E.
    - apply mem_In in E. split; auto. intros [| ->]; auto.
    - rewrite in_app_iff. simpl. intuition. }
  assert (Hget : forall ns, In (a, ns) (dset g u s') <-> dget (dset g u s') a = Some ns).
  { intros ns. symmetry. now apply dget_iff. }
  split.
  - intros (ns & H & Hb). apply Hget in H. rewrite dget_set in H.
    destruct (String.eqb_spec u a) as [->|].
    + injection H as <-. apply Hs' in Hb as [Hb| ->]; auto. left. unfold s in Hb.
      destruct (dget g a) as [s0|] eqn:E; [|destruct Hb]. apply dget_In in E. eauto.
    + apply dget_In in H. eauto.
  - intros [(ns & H & Hb)|[-> ->]].
    + apply In_dget in H; auto. destruct (String.eqb_spec u a) as [->|Hne].
      * exists s'. split; [apply Hget; rewrite dget_set, String.eqb_refl; auto|].
        apply Hs'. left. unfold s. now rewrite H.
      * exists ns. split; auto. apply Hget. rewrite dget_set. now destruct (String.eqb_spec u a).
    + exists s'. split; [apply Hget; rewrite dget_set, String.eqb_refl; auto|]. apply Hs'. now right.
Qed.

Lemma add_edges_spec es : forall g, NoDup (map fst g) ->
  NoDup (map fst (add_edges g es))
  /\ forall a b, edge (add_edges g es) a b <-> edge g a b \/ In (a, b) es.
Proof.
  unfold add_edges. induction es as [|[u v] es IH]; intros g Hn; simpl; [split; auto; intuition|].
  destruct (graph_add_spec g u v Hn) as [H1 H2]. destruct (IH _ H1) as [H3 H4]. split; auto.
  intros a b. rewrite H4, H2. intuition congruence.
Qed.

Variable iter : list string -> list string.
Hypothesis iter_perm : forall l, Permutation (iter l) l.

Definition dep_graph params : graph :=
  map (fun p => (fst p, iter (snd p))) (add_edges [] (flat_map edges_of params)).
Lemma dep_graph_keys params : NoDup (map fst (dep_graph params)).
Proof.
  unfold dep_graph. rewrite map_map. simpl. apply add_edges_spec. constructor.
Qed.
Lemma edge_nil a b : ~ edge [] a b.
Proof. intros (ns & [] & _). Qed.
Lemma dep_graph_edge params a b : edge (dep_graph params) a b <-> needs params b a.
Proof.
  rewrite <- edges_of_In. unfold dep_graph. set (g := add_edges [] (flat_map edges_of params)).
  assert (H : edge g a b <-> In (a, b) (flat_map edges_of params)).
  { unfold g. destruct (add_edges_spec (flat_map edges_of params) [] (NoDup_nil _)) as [_ H]. rewrite H.
    split; [intros [E|E]; auto; now apply edge_nil in E|auto]. }
  rewrite <- H. unfold edge. split.
  - intros (ns & Hin & Hb). apply in_map_iff in Hin as ([k s] & E & Hin). injection E as <- <-.
    exists s. split; auto. simpl in Hb. eapply Permutation_in; eauto.
  - intros (ns & Hin & Hb). exists (iter ns). split.
    + apply in_map_iff. exists (a, ns). auto.
    + eapply Permutation_in; [apply Permutation_sym, iter_perm|auto].
Qed.
Lemma add_edges_key es g k : In k (map fst (add_edges g es)) -> In k (map fst g) \/ exists v, In (k, v) es.
Proof.
  unfold add_edges. revert g. induction es as [|[u v] es IH]; intros g; simpl; auto.
  intros H. apply IH in H as [H|(w & H)]; eauto.
  unfold graph_add in H. rewrite dset_keys in H. destruct (din g u); auto.
  apply in_app_or in H as [H|[<-|[]]]; eauto.
Qed.
Lemma dep_graph_node params x : node (dep_graph params) x ->
  (exists dep, needs params x dep) \/ (exists n, needs params n x).
Proof.
  intros [H|(u & E)].
  - right. unfold dep_graph in H. rewrite map_map in H. simpl in H. apply add_edges_key in H as [[]|(v & H)].
    exists v. now apply edges_of_In.
  - left. exists u. now apply dep_graph_edge.
Qed.

(** what classification returns *)
Lemma classify_spec params : NoDup (map fst params) ->
  classify iter params =
  if existsb is_other params then None
  else
    let '(cs, al) := fold_left (pass2_step (flat_map var_of params)) params (flat_map const_of params, []) in
    match flat_map lazy_of params with
    | [] => Some (mkclasses cs (flat_map var_of params) al (flat_map lazy_of params) [])
    | _ =>
      match check_cycles (dep_graph params) with
      | Some false =>
        match topological_sort (dep_graph params) with
        | Some order => Some (mkclasses cs (flat_map var_of params) al (flat_map lazy_of params)
              (filter (fun v => negb (mem v (flat_map root_of params))) order))
        | None => None
        end
      | _ => None
      end
    end.
Proof.
  intros Hn. unfold classify. rewrite pass1_spec; auto.
  destruct (existsb is_other params); auto.
Qed.

(** pass 2 *)
Definition alias_of params (n t : string) : Prop := In (n, VStr t) params.

Lemma pass2_inv vs params : forall cs al,
  NoDup (map fst params) ->
  let '(cs', al') := fold_left (pass2_step vs) params (cs, al) in
  (* constants already there and not redefined stay *)
  (forall n, ~ (exists t, alias_of params n t) -> dget cs' n = dget cs n)
  /\ (forall n, ~ (exists t, alias_of params n t) -> dget al' n = dget al n)
  /\ (forall n, dget cs' n = None -> dget cs n = None).
Proof.
  induction params as [|[k v] params IH]; intros cs al Hn; [simpl; auto|].
  inversion Hn as [|? ? Hk Hn']; subst. cbn [fold_left].
  destruct (pass2_step vs (cs, al) (k, v)) as [cs1 al1] eqn:E1. specialize (IH cs1 al1 Hn').
  destruct (fold_left (pass2_step vs) params (cs1, al1)) as [cs2 al2]. destruct IH as (I1 & I2 & I3).
  assert (Hstep : (forall n, (n <> k \/ forall t, v <> VStr t) -> dget cs1 n = dget cs n /\ dget al1 n = dget al n)
                  /\ (forall n, dget cs1 n = None -> dget cs n = None)).
  { unfold pass2_step in E1. simpl in E1. destruct v; try (injection E1 as <- <-; auto).
    destruct (dget cs s) eqn:Es; [|destruct (din vs s)]; injection E1 as <- <-; split; auto; intros n.
    - intros [H|H]; [|exfalso; eapply H; eauto]. rewrite dget_set.
      destruct (String.eqb_spec k n); [congruence|auto].
    - rewrite dget_set. destruct (String.eqb_spec k n); [discriminate|auto].
    - intros [H|H]; [|exfalso; eapply H; eauto]. rewrite dget_set.
      destruct (String.eqb_spec k n); [congruence|auto]. }
  destruct Hstep as [S1 S2]. repeat split.
  - intros n Hna. rewrite I1. 
    + apply S1. destruct (string_dec n k) as [->|]; auto. right. intros t ->. apply Hna. exists t. now left.
    + intros (t & H). apply Hna. exists t. now right.
  - intros n Hna. rewrite I2.
    + apply S1. destruct (string_dec n k) as [->|]; auto. right. intros t ->. apply Hna. exists t. now left.
    + intros (t & H). apply Hna. exists t. now right.
  - auto.
Qed.

(** an alias whose target is not itself an alias *)
Lemma pass2_alias vs params : forall cs al,
  NoDup (map fst params) ->
  (forall n, In n (map fst params) -> dget al n = None) ->
  forall n t, alias_of params n t -> (forall t', ~ alias_of params t t') ->
  let '(cs', al') := fold_left (pass2_step vs) params (cs, al) in
  match dget cs t with
  | Some c => dget cs' n = Some c /\ dget al' n = None
  | None => if din vs t then dget cs' n = dget cs n /\ dget al' n = Some t
            else dget cs' n = dget cs n /\ dget al' n = None
  end.
Proof.
  induction params as [|[k v] params IH]; intros cs al Hn Hal n t Ha Ht; [destruct Ha|].
  inversion Hn as [|? ? Hk Hn']; subst. cbn [fold_left].
  destruct (pass2_step vs (cs, al) (k, v)) as [cs1 al1] eqn:E1.
  destruct Ha as [E|Ha].
  - injection E as -> ->. pose proof (pass2_inv vs params cs1 al1 Hn') as Hinv.
    destruct (fold_left (pass2_step vs) params (cs1, al1)) as [cs2 al2]. destruct Hinv as (I1 & I2 & _).
    assert (Hno : ~ exists t', alias_of params n t').
    { intros (t' & H). apply Hk. change n with (fst (n, @VStr K t')). now apply in_map. }
    rewrite (I1 n Hno), (I2 n Hno). unfold pass2_step in E1. simpl in E1.
    assert (Haln : dget al n = None) by (apply Hal; now left).
    destruct (dget cs t) eqn:Es; [|destruct (din vs t)]; injection E1 as <- <-; rewrite ?dget_set, ?String.eqb_refl; auto.
  - assert (Hkn : k <> n).
    { intros ->. apply Hk. change n with (fst (n, @VStr K t)). now apply in_map. }
    assert (Hkt : forall s, v = VStr s -> k <> t).
    { intros s -> ->. apply (Ht s). now left. }
    assert (Hcs1 : dget cs1 n = dget cs n /\ dget cs1 t = dget cs t /\ forall m, m <> k -> dget al1 m = dget al m).
    { unfold pass2_step in E1. simpl in E1. destruct v; try (injection E1 as <- <-; now auto).
      specialize (Hkt s eq_refl).
      destruct (dget cs s) eqn:Es; [|destruct (din vs s)]; injection E1 as <- <-; rewrite ?dget_set; repeat split; auto.
      - destruct (String.eqb_spec k n); congruence.
      - destruct (String.eqb_spec k t); congruence.
      - intros m Hm. rewrite dget_set. destruct (String.eqb_spec k m); congruence. }
    destruct Hcs1 as (C1 & C2 & C3).
    specialize (IH cs1 al1 Hn').
    assert (Hal1 : forall m, In m (map fst params) -> dget al1 m = None).
    { intros m Hm. rewrite C3; [apply Hal; now right|]. intros ->. auto. }
    specialize (IH Hal1 n t Ha). rewrite <- C2, <- C1.
    apply IH. intros t' H. apply (Ht t'). now right.
Qed.

(** every alias recorded points to a variable, and its name is an alias entry *)
Lemma pass2_al vs params : forall cs al,
  (forall n t, In (n, t) al -> din vs t = true) ->
  forall n t, In (n, t) (snd (fold_left (pass2_step vs) params (cs, al))) -> din vs t = true.
Proof.
  induction params as [|[k v] params IH]; intros cs al Hal n t; [simpl; eauto|].
  cbn [fold_left]. destruct (pass2_step vs (cs, al) (k, v)) as [cs1 al1] eqn:E1. apply IH.
  intros n' t'. unfold pass2_step in E1. simpl in E1.
  destruct v; try (injection E1 as <- <-; now eauto).
  destruct (dget cs s) eqn:Es; [|destruct (din vs s) eqn:Ed]; injection E1 as <- <-; eauto.
  assert (Hset : forall d, In (n', t') (dset d k s) -> In (n', t') d \/ t' = s).
  { induction d as [|[k0 a0] d IHd]; simpl; [intros [E|[]]; injection E; auto|].
    destruct (String.eqb k0 k); simpl; intros [E|H]; auto.
    - injection E; auto.
    - destruct (IHd H); auto. }
  intros H. apply Hset in H as [H| ->]; eauto.
Qed.
Lemma pass2_al_keys vs params : forall cs al n,
  In n (map fst (snd (fold_left (pass2_step vs) params (cs, al)))) ->
  In n (map fst al) \/ exists t, alias_of params n t.
Proof.
  induction params as [|[k v] params IH]; intros cs al n; [simpl; auto|].
  cbn [fold_left]. destruct (pass2_step vs (cs, al) (k, v)) as [cs1 al1] eqn:E1.
  intros H. apply IH in H as [H|(t & H)]; [|right; exists t; now right].
  unfold pass2_step in E1. simpl in E1.
  destruct v; try (injection E1 as <- <-; now auto).
  destruct (dget cs s) eqn:Es; [|destruct (din vs s) eqn:Ed]; injection E1 as <- <-; auto.
  rewrite dset_keys in H. destruct (din al k); auto. apply in_app_or in H as [H|[<-|[]]]; auto.
  right. exists s. now left.
Qed.
Lemma pass2_al_NoDup vs params : forall cs al, NoDup (map fst al) ->
  NoDup (map fst (snd (fold_left (pass2_step vs) params (cs, al)))).
Proof.
  induction params as [|[k v] params IH]; intros cs al H; [simpl; auto|].
  cbn [fold_left]. destruct (pass2_step vs (cs, al) (k, v)) as [cs1 al1] eqn:E1.
  apply IH. unfold pass2_step in E1. simpl in E1.
  destruct v; try (injection E1 as <- <-; now auto).
  destruct (dget cs s) eqn:Es; [|destruct (din vs s) eqn:Ed]; injection E1 as <- <-; auto.
  now apply dset_NoDup.
Qed.

(** index table *)
Definition add_alias_index (idx : option (list (string * nat))) (p : string * string) :=
  match idx with
  | None => None
  | Some idx => match dget idx (snd p) with Some i => Some (dset idx (fst p) i) | None => None end
  end.
Lemma alias_index_spec al : forall idx,
  (forall n t, In (n, t) al -> In t (map fst idx)) ->
  (forall n t t', In (n, t) al -> In (n, t') al -> t = t') ->
  (forall n t, In (n, t) al -> ~ In n (map fst idx)) ->
  (forall n t, In (n, t) al -> ~ In t (map fst al)) ->
  NoDup (map fst al) ->
  exists idx', fold_left add_alias_index al (Some idx) = Some idx'
   /\ forall n, dget idx' n = match dget al n with Some t => dget idx t | None => dget idx n end.
Proof.
  induction al as [|[k t] al IH]; intros idx H1 H2 H3 H4 Hn.
  - exists idx. auto.
  - inversion Hn as [|? ? Hk Hn']; subst. cbn [fold_left add_alias_index fst snd].
    destruct (dget idx t) as [i|] eqn:E.
    2:{ apply dget_None in E. exfalso. apply E. eapply H1. now left. }
    destruct (IH (dset idx k i)) as (idx' & E' & Hidx); auto.
    + intros n t' H. rewrite dset_keys. assert (In t' (map fst idx)) by (eapply H1; right; eauto).
      destruct (din idx k); auto. apply in_or_app; auto.
    + intros n t1 t2 A B. eapply H2; right; eauto.
    + intros n t' H. rewrite dset_keys. assert (Hni : ~ In n (map fst idx)) by (eapply H3; right; eauto).
      destruct (din idx k); auto. rewrite in_app_iff. intros [?|[->|[]]]; auto.
      apply Hk. change n with (fst (n, t')). now apply in_map.
    + intros n t' H. assert (~ In t' (map fst ((k, t) :: al))) by (eapply H4; right; eauto). simpl in *. tauto.
    + exists idx'. split; auto. intros n. rewrite Hidx. simpl.
      destruct (String.eqb_spec k n) as [->|Hne].
      * assert (dget al n = None) as -> by (apply dget_None; auto).
        rewrite dget_set, String.eqb_refl. congruence.
      * destruct (dget al n) as [t'|] eqn:En.
        -- rewrite dget_set. destruct (String.eqb_spec k t') as [->|]; auto. exfalso.
           apply (H4 n t'); [right; now apply dget_In|]. now left.
        -- rewrite dget_set. destruct (String.eqb_spec k n); congruence.
Qed.

Lemma combine_keys {B} (l : list string) (l' : list B) : length l = length l' -> map fst (combine l l') = l.
Proof. revert l'. induction l; intros [|b l'] H; simpl; auto; try discriminate. now rewrite IHl by (injection H; auto). Qed.
Lemma combine_seq_get l n : NoDup l -> dget (combine l (seq 0 (length l))) n = index_of l n.
Proof.
  intros _. assert (H : forall k, dget (combine l (seq k (length l))) n = option_map (Nat.add k) (index_of l n)).
  { induction l as [|x l IH]; intros k; auto. cbn [length seq combine dget index_of].
    destruct (String.eqb x n); [simpl; now rewrite Nat.add_0_r|]. rewrite IH.
    destruct (index_of l n); simpl; auto. }
  rewrite H. destruct (index_of l n); auto.
Qed.

(** ** main facts *)
Theorem classification params self_consts r :
  NoDup (map fst params) ->
  classify_model_parameters iter self_consts params = Some r ->
  Sorted str_le (r_sorted r) /\ NoDup (r_sorted r)
  /\ (forall n, In n (r_sorted r) <-> exists m, sampled params n m)
  /\ length (r_marginals r) = length (r_sorted r)
  /\ (forall n m, sampled params n m ->
        exists i, dget (r_index r) n = Some i /\ nth_error (r_sorted r) i = Some n
                  /\ nth_error (r_marginals r) i = Some m)
  /\ (forall n t m, In (n, VStr t) params -> sampled params t m ->
        dget (r_index r) n = dget (r_index r) t)
  /\ (forall n c, given_constant params n c -> ~ In n (map fst self_consts) ->
        dget (r_constants r) n = Some c)
  /\ (forall n t c, In (n, VStr t) params -> given_constant params t c -> ~ In n (map fst self_consts) ->
        dget (r_constants r) n = Some c)
  /\ (forall n i, dget (r_index r) n = Some i -> i < length (r_marginals r)).
Proof.
  intros Hn. unfold classify_model_parameters. rewrite classify_spec by auto.
  destruct (existsb is_other params); [discriminate|].
  pose proof (pass2_inv (flat_map var_of params) params (flat_map const_of params) [] Hn) as Hinv.
  pose proof (pass2_alias (flat_map var_of params) params (flat_map const_of params) [] Hn (fun _ _ => eq_refl)) as Halias.
  pose proof (pass2_al (flat_map var_of params) params (flat_map const_of params) [] (fun n t H => match H with end)) as Hal.
  pose proof (pass2_al_keys (flat_map var_of params) params (flat_map const_of params) []) as Halk.
  pose proof (pass2_al_NoDup (flat_map var_of params) params (flat_map const_of params) [] (NoDup_nil _)) as Haln.
  destruct (fold_left (pass2_step (flat_map var_of params)) params (flat_map const_of params, [])) as [cs al].
  cbn [snd] in *. destruct Hinv as (I1 & I2 & _).
  set (vs := flat_map var_of params) in *.
  set (names := sorted (map fst vs)).
  assert (Hkeys : NoDup (map fst vs)) by now apply var_keys.
  assert (Hnames : NoDup names).
  { eapply Permutation_NoDup; [apply Permutation_sym, sorted_perm|auto]. }
  assert (Hin : forall n, In n names <-> exists m, sampled params n m).
  { intros n. unfold names. split.
    - intros H. eapply Permutation_in in H; [|apply sorted_perm]. apply in_map_iff in H as ([a m] & <- & H).
      exists m. now apply var_of_In.
    - intros (m & H). apply var_of_In in H. eapply Permutation_in; [apply Permutation_sym, sorted_perm|].
      change n with (fst (n, m)). now apply in_map. }
  assert (Hvar_not_alias : forall n m t, sampled params n m -> ~ In (n, VStr t) params).
  { intros n m t [(d & H & _)|(f & a & H & _)] H'; pose proof (same_entry _ _ _ _ Hn H H'); discriminate. }
  assert (Hconst_not_alias : forall n c t, given_constant params n c -> ~ In (n, VStr t) params).
  { intros n c t [[H _]|(f & H & _)] H'; pose proof (same_entry _ _ _ _ Hn H H'); discriminate. }
  assert (Hconst_not_var : forall n c m, given_constant params n c -> ~ sampled params n m).
  { intros n c m [[H _]|(f & H & _)] [(d & H' & _)|(f' & a & H' & _)];
      pose proof (same_entry _ _ _ _ Hn H H'); discriminate. }
  destruct (alias_index_spec al (combine names (seq 0 (length names)))) as (idx & Eidx & Hidx).
  { intros n t H. rewrite combine_keys by now rewrite seq_length.
    apply Hal in H. apply din_iff in H. eapply Permutation_in; [apply Permutation_sym, sorted_perm|auto]. }
  { intros n t t' A B. apply In_dget in A; auto. apply In_dget in B; auto. congruence. }
  { intros n t H. rewrite combine_keys by now rewrite seq_length. rewrite Hin. intros (m & Hm).
    destruct (Halk n) as [[]|(t' & Ht')]; [change n with (fst (n, t)); now apply in_map|].
    apply (Hvar_not_alias n m t' Hm Ht'). }
  { intros n t H Hk. destruct (Halk t) as [[]|(t' & Ht')]; auto. apply Hal in H. apply din_iff in H.
    apply in_map_iff in H as ([a m] & <- & H). apply var_of_In in H. apply (Hvar_not_alias _ m t' H Ht'). }
  { auto. }
  match goal with |- context [match ?x with None => _ | Some _ => _ end] => idtac end.
  assert (Hcore : forall ms deps order, map_opt (dget vs) names = Some ms ->
     r = mkprior (dmerge cs self_consts) names ms deps order idx ->
  Sorted str_le (r_sorted r) /\ NoDup (r_sorted r)
  /\ (forall n, In n (r_sorted r) <-> exists m, sampled params n m)
  /\ length (r_marginals r) = length (r_sorted r)
  /\ (forall n m, sampled params n m ->
        exists i, dget (r_index r) n = Some i /\ nth_error (r_sorted r) i = Some n
                  /\ nth_error (r_marginals r) i = Some m)
  /\ (forall n t m, In (n, VStr t) params -> sampled params t m ->
        dget (r_index r) n = dget (r_index r) t)
  /\ (forall n c, given_constant params n c -> ~ In n (map fst self_consts) ->
        dget (r_constants r) n = Some c)
  /\ (forall n t c, In (n, VStr t) params -> given_constant params t c -> ~ In n (map fst self_consts) ->
        dget (r_constants r) n = Some c)
  /\ (forall n i, dget (r_index r) n = Some i -> i < length (r_marginals r))).
  { intros ms deps order Hms ->. cbn [r_sorted r_marginals r_index r_constants].
    assert (Hsamp : forall n m, sampled params n m ->
        exists i, dget idx n = Some i /\ nth_error names i = Some n /\ nth_error ms i = Some m).
    { intros n m Hm. assert (Hnn : In n names) by (apply Hin; eauto).
      destruct (index_of_In names n Hnn) as (i & Hi). exists i.
      rewrite Hidx. assert (dget al n = None) as ->.
      { apply dget_None. intros H. destruct (Halk n H) as [[]|(t' & Ht')]. apply (Hvar_not_alias _ _ _ Hm Ht'). }
      rewrite combine_seq_get by auto. split; auto. apply index_of_nth in Hi. split; auto.
      destruct (map_opt_nth _ _ _ Hms i n Hi) as (b & Hb & Eb). rewrite Hb.
      apply var_of_In in Hm. apply In_dget in Hm; auto. fold vs in Hm. congruence. }
    split; [apply sorted_sorted|]. split; auto. split; auto.
    split; [eapply map_opt_length; eauto|]. split; auto.
    assert (Hmerge : forall n, ~ In n (map fst self_consts) -> dget (dmerge cs self_consts) n = dget cs n).
    { intros n H. rewrite dmerge_get. assert (dget (rev self_consts) n = None) as ->; auto.
      apply dget_None. rewrite map_rev, <- in_rev. auto. }
    split.
    { intros n t m Ha Hm.
      assert (Htal : dget al t = None).
      { apply dget_None. intros H. destruct (Halk t H) as [[]|(t' & Ht')]. apply (Hvar_not_alias _ _ _ Hm Ht'). }
      specialize (Halias n t Ha (fun t' H => Hvar_not_alias _ _ _ Hm H)).
      assert (dget (flat_map const_of params) t = None) as E0.
      { apply dget_None. intros H. apply in_map_iff in H as ([a c] & <- & H). apply const_of_In in H.
        apply (Hconst_not_var _ _ _ H Hm). }
      rewrite E0 in Halias. assert (din vs t = true) as E1.
      { apply din_iff. apply var_of_In in Hm. change t with (fst (t, m)). now apply in_map. }
      rewrite E1 in Halias. destruct Halias as [_ Hna]. rewrite !Hidx, Hna, Htal. reflexivity. }
    split.
    { intros n c Hc Hns. rewrite Hmerge by auto. rewrite I1.
      - apply In_dget; [now apply const_keys|]. now apply const_of_In.
      - intros (t & H). apply (Hconst_not_alias _ _ _ Hc H). }
    split.
    { intros n t c Ha Hc Hns. rewrite Hmerge by auto.
      specialize (Halias n t Ha (fun t' H => Hconst_not_alias _ _ _ Hc H)).
      assert (dget (flat_map const_of params) t = Some c) as E0.
      { apply In_dget; [now apply const_keys|]. now apply const_of_In. }
      rewrite E0 in Halias. tauto. }
    { intros n i. rewrite Hidx. assert (Hix : forall m, dget (combine names (seq 0 (length names))) m = Some i -> i < length ms).
      { intros m. rewrite combine_seq_get by auto. intros H. apply index_of_nth in H.
        rewrite (map_opt_length _ _ _ Hms). apply nth_error_Some. congruence. }
      destruct (dget al n); eauto. } }
  intros Hres.
  assert (Hms : exists ms deps order, map_opt (dget vs) names = Some ms
     /\ r = mkprior (dmerge cs self_consts) names ms deps order idx).
  { fold add_alias_index in Hres. 
    assert (Hgen : forall lz order,
       match fold_left add_alias_index al (Some (combine names (seq 0 (length names)))), map_opt (dget vs) names with
    | None, _ | _, None | _, Some [] => None
    | Some index, Some ms =>
      match order with
      | [] => if forallb (fun m => negb (is_pending m)) ms
              then Some (mkprior (dmerge cs self_consts) names ms [] [] index) else None
      | _ =>
        match map_opt (fun p : string * list (string * string) =>
                match index_of names (fst p),
                      map_opt (fun q : string * string =>
                                 option_map (fun j => (fst q, j)) (index_of names (snd q))) (snd p) with
                | Some i, Some dep => Some (i, dep)
                | _, _ => None
                end) lz, map_opt (index_of names) order with
        | Some deps, Some idxs =>
          if Nat.eqb (List.length idxs) (List.length deps)
          then Some (mkprior (dmerge cs self_consts) names ms deps idxs index) else None
        | _, _ => None
        end
      end
    end = Some r -> exists ms deps order, map_opt (dget vs) names = Some ms
     /\ r = mkprior (dmerge cs self_consts) names ms deps order idx).
    { intros lz order. rewrite Eidx. destruct (map_opt (dget vs) names) as [[|m ms]|]; try discriminate.
      destruct order.
      - destruct (forallb _ (m :: ms)); [|discriminate]. intros E; injection E as <-. eauto 8.
      - destruct (map_opt _ lz) as [deps|]; [|discriminate].
        destruct (map_opt _ (s :: order)) as [idxs|]; [|discriminate].
        destruct (Nat.eqb _ _); [|discriminate]. intros E; injection E as <-. eauto 8. }
    destruct (flat_map lazy_of params) as [|z lz] eqn:Elz.
    - eapply (Hgen [] []). exact Hres.
    - destruct (check_cycles (dep_graph params)) as [[|]|]; try discriminate.
      destruct (topological_sort (dep_graph params)) as [order|]; [|discriminate].
      eapply (Hgen (z :: lz)). exact Hres. }
  destruct Hms as (ms & deps & order & H1 & H2). eapply Hcore; eauto.
Qed.

Definition dep_index (names : list string) (p : string * list (string * string)) : option (nat * list (string * nat)) :=
  match index_of names (fst p),
        map_opt (fun q : string * string =>
                   option_map (fun j => (fst q, j)) (index_of names (snd q))) (snd p) with
  | Some i, Some dep => Some (i, dep)
  | _, _ => None
  end.

Lemma classify_result params self_consts r :
  NoDup (map fst params) ->
  classify_model_parameters iter self_consts params = Some r ->
  r_sorted r = sorted (map fst (flat_map var_of params))
  /\ map_opt (dget (flat_map var_of params)) (r_sorted r) = Some (r_marginals r)
  /\ ((forallb (fun m => negb (is_pending m)) (r_marginals r) = true /\ r_deps r = [] /\ r_order r = [])
      \/ exists order, ~ cyclic (dep_graph params) /\ topological_sort (dep_graph params) = Some order
           /\ map_opt (dep_index (r_sorted r)) (flat_map lazy_of params) = Some (r_deps r)
           /\ map_opt (index_of (r_sorted r)) (filter (fun v => negb (mem v (flat_map root_of params))) order) = Some (r_order r)
           /\ length (r_order r) = length (r_deps r)).
Proof.
  intros Hn. unfold classify_model_parameters. rewrite classify_spec by auto.
  destruct (existsb is_other params); [discriminate|].
  destruct (fold_left (pass2_step (flat_map var_of params)) params (flat_map const_of params, [])) as [cs al].
  set (vs := flat_map var_of params) in *. set (names := sorted (map fst vs)).
  assert (Hcyc : check_cycles (dep_graph params) = Some false -> ~ cyclic (dep_graph params)).
  { intros E. destruct (check_cycles_spec (dep_graph params) (dep_graph_keys params)) as (b & Hb & Hiff).
    rewrite E in Hb. injection Hb as <-. intros H. apply Hiff in H. discriminate. }
  assert (Hpend : flat_map lazy_of params = [] -> forall n m, sampled params n m -> is_pending m = false).
  { intros E n m [(d & H & ->)|(f & a & H & ->)]; auto. exfalso.
    assert (Hl : In (n, a) (flat_map lazy_of params)) by (apply lazy_of_In; eauto). rewrite E in Hl. destruct Hl. }
  intros Hres. destruct (flat_map lazy_of params) as [|z lz] eqn:Elz.
  - match type of Hres with context [fold_left ?f al ?i] => destruct (fold_left f al i) as [index|]; [|discriminate] end.
    fold names in Hres. destruct (map_opt (dget vs) names) as [[|m ms]|] eqn:Ems; try discriminate.
    destruct (forallb _ (m :: ms)) eqn:Ef; [|discriminate]. injection Hres as <-.
    split; [reflexivity|]. split; [exact Ems|]. left. auto.
  - destruct (check_cycles (dep_graph params)) as [[|]|]; try discriminate.
    destruct (topological_sort (dep_graph params)) as [order|] eqn:Et; [|discriminate].
    fold names in Hres.
    match type of Hres with context [fold_left ?f al ?i] => destruct (fold_left f al i) as [index|]; [|discriminate] end.
    destruct (map_opt (dget vs) names) as [[|m ms]|] eqn:Ems; try discriminate.
    destruct (filter (fun v => negb (mem v (flat_map root_of params))) order) as [|o os] eqn:Eo.
    + destruct (forallb _ (m :: ms)) eqn:Ef; [|discriminate]. injection Hres as <-.
      split; [reflexivity|]. split; [exact Ems|]. left. auto.
    + fold (dep_index names) in Hres.
      destruct (map_opt (dep_index names) (z :: lz)) as [deps|] eqn:Ed; [|discriminate].
      destruct (map_opt (index_of names) (o :: os)) as [idxs|] eqn:Ei; [|discriminate].
      destruct (Nat.eqb_spec (length idxs) (length deps)) as [El|]; [|discriminate].
      injection Hres as <-. split; [reflexivity|]. split; [exact Ems|]. right. exists order.
      cbn [r_sorted r_deps r_order]. rewrite Eo. auto.
Qed.

Lemma filter_before f l u v : before l u v -> f u = true -> f v = true -> before (filter f l) u v.
Proof.
  intros (a & b & c & ->) Hu Hv. exists (filter f a), (filter f b), (filter f c).
  rewrite !filter_app. simpl. rewrite Hu, filter_app. simpl. now rewrite Hv.
Qed.
Lemma NoDup_before_split (l pre post : list string) u v : NoDup l -> before l u v -> l = pre ++ v :: post -> In u pre.
Proof.
  intros Hn (a & b & c & ->) E.
  assert (E2 : (a ++ u :: b) ++ v :: c = pre ++ v :: post) by (rewrite <- E, <- app_assoc; reflexivity).
  assert (Hn2 : NoDup ((a ++ u :: b) ++ v :: c)) by (rewrite <- app_assoc; exact Hn).
  assert (H : a ++ u :: b = pre).
  { clear E Hn. revert E2 Hn2. generalize (a ++ u :: b) as w. intros w. revert pre.
    induction w as [|x w IH]; intros [|y pre] E Hn; simpl in *; auto.
    - exfalso. injection E as -> E. inversion Hn as [|? ? H _]; subst. apply H. apply in_or_app. right. now left.
    - exfalso. injection E as -> E. inversion Hn as [|? ? H _]; subst. apply H. apply in_or_app. right. now left.
    - injection E as -> E. f_equal. apply IH; auto. now inversion Hn. }
  subst pre. apply in_or_app. right. now left.
Qed.

Lemma map_opt_split {A B} (f : A -> option B) l pre b post : map_opt f l = Some (pre ++ b :: post) ->
  exists lpre a lpost, l = lpre ++ a :: lpost /\ map_opt f lpre = Some pre /\ f a = Some b.
Proof.
  revert pre. induction l as [|x l IH]; intros pre; simpl; [destruct pre; discriminate|].
  destruct (f x) as [y|] eqn:Ex; [|discriminate]. destruct (map_opt f l) as [r|] eqn:El; [|discriminate].
  destruct pre as [|p pre]; simpl; intros E; injection E as -> E.
  - exists [], x, l. auto.
  - subst r. destruct (IH pre eq_refl) as (lpre & a & lpost & -> & H1 & H2).
    exists (x :: lpre), a, lpost. split; auto. split; auto. simpl. now rewrite Ex, H1.
Qed.

Lemma assoc_nat_In {A} (l : list (nat * A)) i a : NoDup (map fst l) -> In (i, a) l -> assoc_nat l i = Some a.
Proof.
  induction l as [|[k b] l IH]; simpl; [tauto|]. intros Hn [E|H].
  - injection E as -> ->. now rewrite Nat.eqb_refl.
  - inversion Hn as [|? ? H1 H2]; subst. destruct (Nat.eqb_spec k i) as [->|]; auto.
    exfalso. apply H1. change i with (fst (i, a)). now apply in_map.
Qed.

Lemma index_of_inj l x y i : index_of l x = Some i -> index_of l y = Some i -> x = y.
Proof. intros H1 H2. apply index_of_nth in H1, H2. congruence. Qed.

Lemma map_opt_NoDup {A B} (f : A -> option B) l r :
  (forall x y b, f x = Some b -> f y = Some b -> x = y) -> NoDup l -> map_opt f l = Some r -> NoDup r.
Proof.
  intros Hf Hn. revert r. induction Hn as [|x l Hx Hn IH]; intros r; simpl; [intros E; injection E as <-; constructor|].
  destruct (f x) as [b|] eqn:Ex; [|discriminate]. destruct (map_opt f l) as [r'|] eqn:El; [|discriminate].
  intros E; injection E as <-. constructor; auto. intros Hb.
  destruct (map_opt_In _ _ _ _ El Hb) as (a & Ha & Ea). rewrite (Hf x a b) in Hx; auto.
Qed.

(** the prior built from a configuration can be evaluated and sampled in the order found *)
Theorem lazy_prior_well_formed params self_consts r independent :
  NoDup (map fst params) ->
  classify_model_parameters iter self_consts params = Some r ->
  Permutation independent (independent_of (r_order r) (length (r_marginals r))) ->
  deps_match (r_marginals r) (r_deps r) (length (r_marginals r))
  /\ respects (r_marginals r) (r_deps r) independent (r_order r)
  /\ (forall n f args, In (n, VLazy f args) params ->
        exists i dep, nth_error (r_sorted r) i = Some n /\ assoc_nat (r_deps r) i = Some dep
          /\ Forall2 (fun a d => fst d = fst a /\ nth_error (r_sorted r) (snd d) = Some (snd a)) args dep).
Proof.
  intros Hn Hres Hind.
  pose proof (classification _ _ _ Hn Hres) as (_ & Hns & Hin & Hlen & Hsamp & _).
  destruct (classify_result _ _ _ Hn Hres) as (_ & _ & Hcase).
  assert (Hnth_samp : forall i n, nth_error (r_sorted r) i = Some n ->
             exists m, sampled params n m /\ nth_error (r_marginals r) i = Some m).
  { intros i n Hi. assert (H : In n (r_sorted r)) by (eapply nth_error_In; eauto).
    apply Hin in H as (m & Hm). exists m. split; auto. destruct (Hsamp _ _ Hm) as (j & _ & Hj & Hmj).
    assert (i = j); [|now subst]. eapply NoDup_nth_error; eauto; [|congruence]. apply nth_error_Some. congruence. }
  assert (Hnth_marg : forall i m, nth_error (r_marginals r) i = Some m ->
             exists n, nth_error (r_sorted r) i = Some n /\ sampled params n m).
  { intros i m Hi. assert (Hlt : i < length (r_sorted r)).
    { rewrite <- Hlen. apply nth_error_Some. congruence. }
    destruct (nth_error (r_sorted r) i) as [n|] eqn:E; [|apply nth_error_None in E; lia].
    exists n. split; auto. destruct (Hnth_samp i n E) as (m' & Hm & Hm'). congruence. }
  destruct Hcase as [(Hall & Hd & Ho)|(order & Hac & Htopo & Hdeps & Horder & Hlenq)].
  - (* nothing lazy *)
    rewrite forallb_forall in Hall.
    assert (Hready : forall i m, nth_error (r_marginals r) i = Some m -> exists d, m = Ready d).
    { intros i m Hm. specialize (Hall m (nth_error_In _ _ Hm)). destruct m; [eauto|discriminate]. }
    rewrite Hd, Ho in *. unfold independent_of in Hind. simpl in Hind.
    assert (Hfil : forall l : list nat, filter (fun _ => true) l = l).
    { induction l as [|x l IH]; simpl; auto. now rewrite IH. }
    rewrite Hfil in Hind.
    split; [|split].
    + split; [constructor|]. split; [|intros ? ? ? ? []]. intros i. split; [intros []|].
      intros (f & Hf). destruct (Hready _ _ Hf); discriminate.
    + split; [now rewrite app_nil_r|]. split; [|intros [|] ? ? E; discriminate].
      intros i Hi. eapply Permutation_in in Hi; [|exact Hind]. apply in_seq in Hi.
      destruct (nth_error (r_marginals r) i) as [m|] eqn:E; [|apply nth_error_None in E; lia].
      destruct (Hready _ _ E) as (d & ->). eauto.
    + intros n f args Hl. exfalso. destruct (Hsamp n (Pending f)) as (i & _ & _ & Hi); [right; eauto|].
      destruct (Hready _ _ Hi); discriminate.
  - (* lazy *)
    set (lo := filter (fun v => negb (mem v (flat_map root_of params))) order) in *.
    destruct (topological_sort_spec (dep_graph params) (dep_graph_keys params) Hac)
      as (order' & E' & Tn & Tin & Tbef).
    rewrite Htopo in E'. injection E' as <-.
    assert (Hlo_nd : NoDup lo) by now apply NoDup_filter.
    (* elements of the lazy order are lazy parameters *)
    assert (Hlo_lazy : forall n, In n lo -> exists f args, In (n, VLazy f args) params).
    { intros n Hl. destruct (map_opt_In' _ _ _ _ Horder Hl) as (i & _ & Hi).
      apply index_of_nth in Hi. destruct (Hnth_samp _ _ Hi) as (m & Hm & _).
      apply filter_In in Hl as [_ Hl]. apply negb_true_iff, mem_not_In in Hl.
      destruct Hm as [(d & H & _)|(f & a & H & _)]; eauto. exfalso. apply Hl. apply root_of_In. eauto. }
    assert (Hlz_nd : NoDup (map fst (flat_map lazy_of params))) by now apply lazy_keys.
    assert (Hlazy_lo : forall n f args, In (n, VLazy f args) params -> In n lo).
    { assert (Hincl : incl lo (map fst (flat_map lazy_of params))).
      { intros n Hl. destruct (Hlo_lazy n Hl) as (f & a & H).
        change n with (fst (n, a)). apply in_map. apply lazy_of_In. eauto. }
      assert (Hlq : length (map fst (flat_map lazy_of params)) <= length lo).
      { rewrite map_length. rewrite <- (map_opt_length _ _ _ Hdeps), <- Hlenq.
        rewrite (map_opt_length _ _ _ Horder). auto. }
      pose proof (NoDup_length_incl Hlo_nd Hlq Hincl) as Hincl'.
      intros n f a H. apply Hincl'. change n with (fst (n, a)). apply in_map. apply lazy_of_In. eauto. }
    assert (Hdep_fst : map_opt (index_of (r_sorted r)) (map fst (flat_map lazy_of params)) = Some (map fst (r_deps r))).
    { clear -Hdeps. revert Hdeps. generalize (r_deps r) as deps. generalize (flat_map lazy_of params) as lz.
      induction lz as [|[a b] lz IH]; intros deps; simpl; [intros E; injection E as <-; auto|].
      unfold dep_index at 1. cbn [fst snd]. destruct (index_of (r_sorted r) a) as [i|]; [|discriminate].
      destruct (map_opt _ b) as [dep|]; [|discriminate]. destruct (map_opt _ lz) as [ds|]; [|discriminate].
      intros E; injection E as <-. now rewrite (IH ds eq_refl). }
    assert (Hdeps_nd : NoDup (map fst (r_deps r))).
    { eapply map_opt_NoDup; [|exact Hlz_nd|exact Hdep_fst]. intros x y b. apply index_of_inj. }
    assert (Hlazy_dep : forall n f args, In (n, VLazy f args) params ->
        exists i dep, nth_error (r_sorted r) i = Some n /\ assoc_nat (r_deps r) i = Some dep
          /\ Forall2 (fun a d => fst d = fst a /\ nth_error (r_sorted r) (snd d) = Some (snd a)) args dep).
    { intros n f args Hl. assert (Hlz : In (n, args) (flat_map lazy_of params)) by (apply lazy_of_In; eauto).
      destruct (map_opt_In' _ _ _ _ Hdeps Hlz) as ([i dep] & Hid & E). unfold dep_index in E. cbn [fst snd] in E.
      destruct (index_of (r_sorted r) n) as [i'|] eqn:Ei; [|discriminate].
      destruct (map_opt _ args) as [dep'|] eqn:Ed; [|discriminate]. injection E as -> ->.
      exists i, dep. split; [now apply index_of_nth|]. split; [now apply assoc_nat_In|].
      clear -Ed. revert dep Ed. induction args as [|[a b] args IH]; intros dep; simpl; [intros E; injection E as <-; constructor|].
      destruct (index_of (r_sorted r) b) as [j|] eqn:Ej; simpl; [|discriminate].
      destruct (map_opt _ args) as [ds|]; [|discriminate]. intros E; injection E as <-. constructor; auto.
      simpl. split; auto. now apply index_of_nth. }
    assert (Hdep_lazy : forall i dep, In (i, dep) (r_deps r) -> exists n f args, In (n, VLazy f args) params
          /\ nth_error (r_sorted r) i = Some n).
    { intros i dep Hid. destruct (map_opt_In _ _ _ _ Hdeps Hid) as ([n args] & Hna & E).
      apply lazy_of_In in Hna as (f & Hna). exists n, f, args. split; auto.
      unfold dep_index in E. cbn [fst snd] in E.
      destruct (index_of (r_sorted r) n) as [i'|] eqn:Ei; [|discriminate].
      destruct (map_opt _ args); [|discriminate]. injection E as -> _. now apply index_of_nth. }
    assert (Hord_nth : forall i, In i (r_order r) <-> exists n, In n lo /\ nth_error (r_sorted r) i = Some n).
    { intros i. split.
      - intros Hi. destruct (map_opt_In _ _ _ _ Horder Hi) as (n & Hl & E). exists n. split; auto. now apply index_of_nth.
      - intros (n & Hl & E). destruct (map_opt_In' _ _ _ _ Horder Hl) as (j & Hj & E').
        apply index_of_nth in E'. assert (i = j); [|now subst].
        eapply NoDup_nth_error; [exact Hns| |congruence]. apply nth_error_Some. congruence. }
    assert (Hord_nd : NoDup (r_order r)).
    { eapply map_opt_NoDup; [|exact Hlo_nd|exact Horder]. intros x y b. apply index_of_inj. }
    assert (Hind_iff : forall i, In i independent <-> i < length (r_marginals r) /\ ~ In i (r_order r)).
    { intros i. assert (H : In i independent <-> In i (independent_of (r_order r) (length (r_marginals r)))).
      { split; intros H; (eapply Permutation_in; [|exact H]); auto. now apply Permutation_sym. }
      rewrite H. unfold independent_of. rewrite filter_In, in_seq, negb_true_iff.
      assert (Hex : existsb (Nat.eqb i) (r_order r) = false <-> ~ In i (r_order r)).
      { rewrite <- not_true_iff_false, existsb_exists. split.
        - intros Hx Hi. apply Hx. exists i. split; auto. apply Nat.eqb_refl.
        - intros Hx (j & Hj & E). apply Nat.eqb_eq in E. now subst. }
      rewrite Hex. intuition lia. }
    split; [|split; [|exact Hlazy_dep]].
    + split; [exact Hdeps_nd|]. split.
      * intros i. split.
        -- intros Hi. apply in_map_iff in Hi as ([i' dep] & <- & Hid). destruct (Hdep_lazy _ _ Hid) as (n & f & a & Hl & Hi).
           exists f. destruct (Hsamp n (Pending f)) as (j & _ & Hj & Hm); [right; eauto|].
           simpl. assert (i' = j); [|now subst]. eapply NoDup_nth_error; [exact Hns| |congruence]. apply nth_error_Some. congruence.
        -- intros (f & Hf). destruct (Hnth_marg _ _ Hf) as (n & Hi & [(d & _ & E)|(f' & a & Hl & E)]); [discriminate|].
           destruct (Hlazy_dep _ _ _ Hl) as (j & dep & Hj & Hdep & _).
           assert (i = j) as ->. { eapply NoDup_nth_error; [exact Hns| |congruence]. apply nth_error_Some. congruence. }
           clear -Hdep. induction (r_deps r) as [|[k b] l IH]; simpl in *; [discriminate|].
           destruct (Nat.eqb_spec k j); auto.
      * intros i dep k j Hid Hkj. destruct (Hdep_lazy _ _ Hid) as (n & f & a & Hl & Hi).
        destruct (Hlazy_dep _ _ _ Hl) as (i' & dep' & Hi' & Hdep & HF).
        assert (i = i') as <-. { eapply NoDup_nth_error; [exact Hns| |congruence]. apply nth_error_Some. congruence. }
        rewrite (assoc_nat_In _ _ _ Hdeps_nd Hid) in Hdep. injection Hdep as <-.
        rewrite Hlen. apply nth_error_Some.
        clear -HF Hkj. induction HF as [|x y xs ys [_ H] HF IH]; [destruct Hkj|].
        destruct Hkj as [->|Hkj]; auto. simpl in H. congruence.
    + split; [|split].
      * assert (Hnd : NoDup (independent ++ r_order r)).
        { assert (NoDup independent).
          { eapply Permutation_NoDup; [apply Permutation_sym; exact Hind|]. apply NoDup_filter, seq_NoDup. }
          clear -H Hord_nd Hind_iff. assert (Hd : forall i, In i independent -> ~ In i (r_order r)) by (intros i Hi; now apply Hind_iff in Hi).
          clear Hind_iff. induction H as [|x l Hx H IH]; simpl; auto. constructor.
          - rewrite in_app_iff. intros [?|Hx']; auto. apply (Hd x); simpl; auto.
          - apply IH. intros i Hi. apply Hd. now right. }
        apply NoDup_Permutation; auto; [apply seq_NoDup|].
        intros i. rewrite in_app_iff, in_seq, Hind_iff. split.
        -- intros [[? _]|Hi]; [lia|]. apply Hord_nth in Hi as (n & _ & Hi).
           assert (i < length (r_sorted r)) by (apply nth_error_Some; congruence). lia.
        -- intros [_ Hi]. destruct (in_dec Nat.eq_dec i (r_order r)); auto.
      * intros i Hi. apply Hind_iff in Hi as [Hlt Hno].
        destruct (nth_error (r_marginals r) i) as [m|] eqn:E; [|apply nth_error_None in E; lia].
        destruct (Hnth_marg _ _ E) as (n & Hi & [(d & _ & ->)|(f & a & Hl & ->)]); eauto.
        exfalso. apply Hno. apply Hord_nth. exists n. split; eauto.
      * intros pre i post Eord. rewrite Eord in Horder.
        destruct (map_opt_split _ _ _ _ _ Horder) as (lpre & n & lpost & Elo & Hpre & Hi).
        assert (Hl : In n lo) by (rewrite Elo; apply in_or_app; right; now left).
        destruct (Hlo_lazy n Hl) as (f & args & Hla).
        destruct (Hlazy_dep _ _ _ Hla) as (i' & dep & Hi' & Hdep & HF).
        apply index_of_nth in Hi.
        assert (i = i') as <-. { eapply NoDup_nth_error; [exact Hns| |congruence]. apply nth_error_Some. congruence. }
        exists dep. split; auto. intros k j Hkj.
        assert (Hdep_t : exists t, nth_error (r_sorted r) j = Some t /\ In t (map snd args)).
        { clear -HF Hkj. induction HF as [|x y xs ys [H1 H2] HF IH]; [destruct Hkj|].
          destruct Hkj as [->|Hkj].
          - exists (snd x). split; auto. now left.
          - destruct (IH Hkj) as (t & ? & ?). exists t. split; auto. now right. }
        destruct Hdep_t as (t & Hj & Ht). apply in_map_iff in Ht as ([k' t'] & Et & Ht). simpl in Et. subst t'.
        assert (Hneed : needs params n t) by (exists f, args, k'; auto).
        assert (Hjlt : j < length (r_marginals r)).
        { rewrite Hlen. apply nth_error_Some. congruence. }
        apply in_or_app. destruct (in_dec Nat.eq_dec j (r_order r)) as [Hjo|Hjo].
        2:{ left. apply Hind_iff. auto. }
        right. apply Hord_nth in Hjo as (t' & Ht' & Hj'). assert (t' = t) as -> by congruence.
        assert (Hb : before lo t n).
        { apply filter_before.
          - apply Tbef. now apply dep_graph_edge.
          - now apply filter_In in Ht' as [_ ?].
          - now apply filter_In in Hl as [_ ?]. }
        pose proof (NoDup_before_split lo lpre lpost t n Hlo_nd Hb Elo) as Htp.
        destruct (map_opt_In' _ _ _ _ Hpre Htp) as (j' & Hj'' & E).
        apply index_of_nth in E. assert (j = j') as ->; auto.
        eapply NoDup_nth_error; [exact Hns| |congruence]. apply nth_error_Some. congruence.
Qed.

(** a cycle among the lazy priors is an error *)
Theorem lazy_cycle_rejected params self_consts :
  NoDup (map fst params) -> (exists n, clos_trans _ (needs params) n n) ->
  classify_model_parameters iter self_consts params = None.
Proof.
  intros Hn (n & Hcyc). unfold classify_model_parameters. rewrite classify_spec by auto.
  destruct (existsb is_other params); auto.
  assert (Hc : cyclic (dep_graph params)).
  { exists n. assert (H : forall x y, clos_trans _ (needs params) x y -> clos_trans _ (edge (dep_graph params)) y x).
    { intros x y H. induction H; [apply t_step; now apply dep_graph_edge|eapply t_trans; eauto]. }
    now apply H. }
  assert (Hlz : exists z lz, flat_map lazy_of params = z :: lz).
  { apply clos_trans_t1n in Hcyc. assert (exists t, needs params n t) as (t & f & a & k & H & _).
    { inversion Hcyc; subst; eauto. }
    assert (Hl : In (n, a) (flat_map lazy_of params)) by (apply lazy_of_In; eauto).
    destruct (flat_map lazy_of params); [destruct Hl|eauto]. }
  destruct (fold_left _ params _) as [cs al]. destruct Hlz as (z & lz & ->).
  destruct (check_cycles_spec (dep_graph params) (dep_graph_keys params)) as (b & -> & Hb).
  assert (b = true) as -> by now apply Hb. reflexivity.
Qed.

(** where each alias goes *)
Theorem aliases_kept params c :
  NoDup (map fst params) -> classify iter params = Some c ->
  (forall n t, In (n, VStr t) params -> (forall t', ~ In (t, VStr t') params) -> In t (map fst params) ->
     In n (map fst (k_constants c)) \/ In (n, t) (k_aliases c))
  /\ (forall n m, sampled params n m -> In (n, m) (k_variables c))
  /\ (forall n k, given_constant params n k -> dget (k_constants c) n = Some k).
Proof.
  intros Hn. rewrite classify_spec by auto. destruct (existsb is_other params) eqn:Eo; [discriminate|].
  pose proof (pass2_inv (flat_map var_of params) params (flat_map const_of params) [] Hn) as Hinv.
  pose proof (pass2_alias (flat_map var_of params) params (flat_map const_of params) [] Hn (fun _ _ => eq_refl)) as Halias.
  destruct (fold_left (pass2_step (flat_map var_of params)) params (flat_map const_of params, [])) as [cs al].
  destruct Hinv as (I1 & I2 & I3).
  intros Hres.
  assert (Hc : k_constants c = cs /\ k_aliases c = al /\ k_variables c = flat_map var_of params).
  { destruct (flat_map lazy_of params); [injection Hres as <-; auto|].
    destruct (check_cycles _) as [[|]|]; try discriminate.
    destruct (topological_sort _); [|discriminate]. injection Hres as <-; auto. }
  destruct Hc as (-> & -> & ->). split; [|split].
  - intros n t Ha Ht Hk. specialize (Halias n t Ha Ht).
    destruct (dget (flat_map const_of params) t) eqn:Ec.
    + destruct Halias as [H _]. left. apply dget_In in H. change n with (fst (n, o)). now apply in_map.
    + destruct (din (flat_map var_of params) t) eqn:Ed.
      * right. now apply dget_In.
      * exfalso. apply in_map_iff in Hk as ([t0 v] & Et & Hk). simpl in Et. subst t0.
        apply dget_None in Ec. assert (Hnv : ~ In t (map fst (flat_map var_of params))) by (rewrite <- din_iff; congruence).
        destruct v.
        -- apply Ec. change t with (fst (t, @None X)). apply in_map, const_of_In. left; auto.
        -- apply Ec. change t with (fst (t, Some x)). apply in_map, const_of_In. right; eauto.
        -- apply Hnv. change t with (fst (t, Ready d)). apply in_map, var_of_In. left; eauto.
        -- apply Hnv. change t with (fst (t, Pending f)). apply in_map, var_of_In. right; eauto.
        -- now apply (Ht s).
        -- assert (existsb is_other params = true) by (apply existsb_exists; eexists; split; [exact Hk|reflexivity]). congruence.
  - intros n m. apply var_of_In.
  - intros n k Hk. rewrite I1.
    + apply In_dget; [now apply const_keys|]. now apply const_of_In.
    + intros (t & Ha). destruct Hk as [[H _]|(x & H & _)]; pose proof (same_entry _ _ _ _ Hn H Ha); discriminate.
Qed.

Lemma constants_merged params self_consts r :
  classify_model_parameters iter self_consts params = Some r ->
  exists cs, r_constants r = dmerge cs self_consts.
Proof.
  unfold classify_model_parameters. destruct (classify iter params) as [[cs vs al lz order]|]; [|discriminate].
  intros H. exists cs.
  repeat match type of H with
  | None = Some _ => discriminate
  | Some _ = Some _ => injection H as <-; reflexivity
  | context [match ?x with _ => _ end] => destruct x
  end.
Qed.

Theorem direct_entries_kept params self_consts r n v :
  NoDup (map fst params) ->
  classify_model_parameters iter self_consts params = Some r ->
  In (n, v) params ->
  (forall t, v = VStr t -> exists w, In (t, w) params /\ forall t', w <> VStr t') ->
  (exists c, dget (r_constants r) n = Some c) \/ (exists i, dget (r_index r) n = Some i).
Proof.
  intros Hn Hr Hv Ht.
  pose proof (classification _ _ _ Hn Hr) as (_ & _ & _ & _ & Hs & Hal & Hc & Hac & _).
  assert (Hno : forall m, ~ In (m, VOther) params).
  { intros m Hm. unfold classify_model_parameters in Hr. rewrite classify_spec in Hr by auto.
    assert (existsb is_other params = true) as E by (apply existsb_exists; eexists; split; [exact Hm|reflexivity]).
    rewrite E in Hr. discriminate. }
  destruct (dget self_consts n) eqn:Es.
  { left. destruct (constants_merged _ _ _ Hr) as (cs & ->). rewrite dmerge_get.
    destruct (dget (rev self_consts) n) eqn:E; [eauto|]. exfalso. apply dget_None in E. apply E.
    rewrite map_rev, <- in_rev. apply dget_In in Es. change n with (fst (n, o)). now apply in_map. }
  apply dget_None in Es.
  destruct v as [|x|d|f args|t|].
  - left. exists None. apply Hc; auto. left; auto.
  - left. exists (Some x). apply Hc; auto. right; eauto.
  - right. destruct (Hs n (Ready d)) as (i & H & _); [left; eauto|eauto].
  - right. destruct (Hs n (Pending f)) as (i & H & _); [right; eauto|eauto].
  - destruct (Ht t eq_refl) as (w & Hw & Hns). destruct w as [|x|d|f args|t'|].
    + left. exists None. apply (Hac n t); auto. left; auto.
    + left. exists (Some x). apply (Hac n t); auto. right; eauto.
    + right. assert (Hsm : sampled params t (Ready d)) by (left; eauto).
      rewrite (Hal n t _ Hv Hsm). destruct (Hs _ _ Hsm) as (i & H & _); eauto.
    + right. assert (Hsm : sampled params t (Pending f)) by (right; eauto).
      rewrite (Hal n t _ Hv Hsm). destruct (Hs _ _ Hsm) as (i & H & _); eauto.
    + exfalso. eapply Hns; reflexivity.
    + exfalso. eapply Hno; eauto.
  - exfalso. eapply Hno; eauto.
Qed.
End Classify.
