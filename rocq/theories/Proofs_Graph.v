From Coq Require Import String List Bool Relations Lia Arith Permutation.
From Verif Require Import Model_Graph Spec_Graph.
Import ListNotations.

Lemma mem_In x l : mem x l = true <-> In x l.
Proof.
  unfold mem. rewrite existsb_exists. split.
  - intros (y & H & E). apply String.eqb_eq in E. now subst.
  - intros H. exists x. split; auto. apply String.eqb_refl.
Qed.
Lemma mem_not_In x l : mem x l = false <-> ~ In x l.
Proof. rewrite <- mem_In. destruct (mem x l); split; congruence. Qed.

Section G.
Variable g : graph.
Hypothesis keys : NoDup (map fst g).

Lemma neighbours_edge u v : In v (neighbours g u) <-> edge g u v.
Proof.
  revert keys. unfold edge. induction g as [|[k ns] t IH]; simpl; intros Hk.
  - split; [intros []|intros (ns & [] & _)].
  - inversion Hk as [|? ? Hn Hk']; subst. destruct (String.eqb_spec k u) as [->|Hne].
    + split; [eauto|]. intros (ns' & [E|H] & Hv); [now injection E as ->|].
      exfalso. apply Hn. apply in_map_iff. exists (u, ns'). auto.
    + rewrite IH by auto. split.
      * intros (ns' & H & Hv). eauto.
      * intros (ns' & [E|H] & Hv); [injection E as -> ->; congruence|eauto].
Qed.

(** all names *)
Definition names : list string := flat_map (fun p => fst p :: snd p) g.
Lemma node_names x : node g x <-> In x names.
Proof.
  unfold node, names, edge. rewrite in_flat_map. split.
  - intros [H|(u & ns & H & Hx)].
    + apply in_map_iff in H as ([k ns] & <- & H). exists (k, ns). simpl; auto.
    + exists (u, ns). simpl; auto.
  - intros ([k ns] & H & [<-|Hx]).
    + left. apply in_map_iff. exists (k, ns). auto.
    + right. exists k, ns. auto.
Qed.
Lemma edge_node u v : edge g u v -> node g v.
Proof. right. eauto. Qed.

(** number of distinct names not yet visited *)
Definition unvisited (vis : list string) : list string :=
  filter (fun x => negb (mem x vis)) (nodup string_dec names).
Lemma unvisited_In x vis : In x (unvisited vis) <-> node g x /\ ~ In x vis.
Proof.
  unfold unvisited. rewrite filter_In, nodup_In, negb_true_iff, mem_not_In, node_names. tauto.
Qed.
Lemma unvisited_NoDup vis : NoDup (unvisited vis).
Proof. apply NoDup_filter, NoDup_nodup. Qed.
Lemma unvisited_mono a b : incl a b -> length (unvisited b) <= length (unvisited a).
Proof.
  intros H. apply NoDup_incl_length; [apply unvisited_NoDup|].
  intros x. rewrite !unvisited_In. intros [? ?]; split; auto.
Qed.
Lemma unvisited_cons n vis : node g n -> ~ In n vis ->
  S (length (unvisited (n :: vis))) <= length (unvisited vis).
Proof.
  intros Hn Hv. change (length (n :: unvisited (n :: vis)) <= length (unvisited vis)).
  apply NoDup_incl_length.
  - constructor; [|apply unvisited_NoDup]. rewrite unvisited_In. simpl. tauto.
  - intros x [<-|H]; rewrite unvisited_In; auto. apply unvisited_In in H. simpl in H. tauto.
Qed.
Lemma unvisited_fuel vis : length (unvisited vis) < fuel_of g.
Proof.
  unfold fuel_of. apply le_n_S. fold names. unfold unvisited.
  apply NoDup_incl_length; [apply unvisited_NoDup|]. intros x Hx.
  apply filter_In in Hx as [Hx _]. now rewrite nodup_In in Hx.
Qed.

(** a list of names, newest first, in which each name's neighbours come strictly later *)
Fixpoint closed (fin : list string) : Prop :=
  match fin with
  | [] => True
  | n :: t => ~ In n t /\ (forall v, edge g n v -> In v t) /\ closed t
  end.

Lemma closed_down fin u v : closed fin -> In u fin -> edge g u v -> In v fin.
Proof.
  induction fin as [|n t IH]; simpl; [tauto|]. intros (Hn & He & Hc) [<-|H] E; auto.
Qed.
Lemma closed_reach fin u v : closed fin -> clos_trans _ (edge g) u v -> In u fin -> In v fin.
Proof.
  intros Hc H. induction H; intros Hu; auto. eapply closed_down; eauto.
Qed.
Lemma closed_acyclic fin u : closed fin -> In u fin -> ~ clos_trans _ (edge g) u u.
Proof.
  induction fin as [|n t IH]; simpl; [tauto|]. intros (Hn & He & Hc) Hu Hcyc.
  destruct Hu as [<-|Hu]; [|now apply IH].
  apply Hn. apply clos_trans_t1n in Hcyc. inversion Hcyc; subst; auto.
  eapply closed_reach; [exact Hc| |apply He; eauto]. now apply clos_t1n_trans.
Qed.
Lemma closed_NoDup fin : closed fin -> NoDup fin.
Proof. induction fin; simpl; constructor; tauto. Qed.
Lemma closed_before fin u v : closed fin -> In u fin -> edge g u v -> before fin u v.
Proof.
  induction fin as [|n t IH]; simpl; [tauto|]. intros (Hn & He & Hc) Hu E.
  destruct Hu as [<-|Hu].
  - apply He in E. apply in_split in E as (b & c & ->). exists [], b, c. reflexivity.
  - destruct (IH Hc Hu E) as (a & b & c & ->). exists (n :: a), b, c. reflexivity.
Qed.

(** the stack of open calls, innermost first, is a path ending at the innermost *)
Fixpoint path (stack : list string) : Prop :=
  match stack with
  | [] => True
  | n :: t => match t with [] => True | m :: _ => edge g m n end /\ path t
  end.
Lemma path_reach n t u : path (n :: t) -> In u t -> clos_trans _ (edge g) u n.
Proof.
  revert n. induction t as [|m t IH]; intros n; simpl; [tauto|]. intros [E Hp] [<-|Hu].
  - now apply t_step.
  - eapply t_trans; [apply IH; [exact Hp|exact Hu]|now apply t_step].
Qed.
Lemma path_cycle n t u : path (n :: t) -> edge g n u -> In u (n :: t) -> cyclic g.
Proof.
  intros Hp E [<-|Hu]; exists n; [now apply t_step|].
  eapply t_trans; [now apply t_step, E|]. eapply path_reach; eauto.
Qed.

(** ** cycle check *)
(** visited is exactly finished plus open *)
Definition cinv (vis stack fin : list string) : Prop :=
  (forall x, In x vis <-> In x stack \/ In x fin)
  /\ (forall x, In x stack -> ~ In x fin) /\ NoDup stack /\ path stack /\ closed fin.

Lemma cyc_dfs_spec fuel : forall n vis stack fin,
  cinv vis stack fin -> ~ In n vis -> node g n ->
  match stack with [] => True | m :: _ => edge g m n end ->
  length (unvisited vis) <= fuel ->
  (exists st, cyc_dfs fuel g n (vis, stack) = Some (true, st) /\ cyclic g)
  \/ (exists vis' new, cyc_dfs fuel g n (vis, stack) = Some (false, (vis', stack))
        /\ cinv vis' stack (new ++ fin) /\ In n new).
Proof.
  induction fuel as [|f IHf]; intros n vis stack fin Hinv Hn Hnode Hedge Hfuel.
  { pose proof (unvisited_cons n vis Hnode Hn). lia. }
  cbn [cyc_dfs].
  pose proof (unvisited_cons n vis Hnode Hn) as Hdec.
  set (loop := fix loop (ns : list string) (st : cstate) : option (bool * cstate) :=
        match ns with
        | [] => Some (false, st)
        | neighbor :: ns' =>
          if negb (mem neighbor (fst st)) then
            match cyc_dfs f g neighbor st with
            | None => None
            | Some (true, st') => Some (true, st')
            | Some (false, st') => loop ns' st'
            end
          else if mem neighbor (snd st) then Some (true, st)
          else loop ns' st
        end).
  destruct Hinv as (Hv & Hd & Hs & Hp & Hc).
  assert (Hn1 : ~ In n stack /\ ~ In n fin) by (split; intros H; apply Hn, Hv; auto).
  assert (Hloop : forall ns vis1 fin1,
      (forall v, In v ns -> edge g n v) ->
      cinv vis1 (n :: stack) fin1 ->
      length (unvisited vis1) <= f ->
      (exists st, loop ns (vis1, n :: stack) = Some (true, st) /\ cyclic g)
      \/ (exists vis2 new, loop ns (vis1, n :: stack) = Some (false, (vis2, n :: stack))
            /\ cinv vis2 (n :: stack) (new ++ fin1) /\ forall v, In v ns -> In v (new ++ fin1))).
  { induction ns as [|m ns IHns]; intros vis1 fin1 Hns Hinv1 Hf1.
    - right. exists vis1, []. split; auto. split; auto. intros v [].
    - assert (Em : edge g n m) by (apply Hns; now left).
      cbn [loop]. fold loop. cbn [fst snd]. destruct (mem m vis1) eqn:Emem; cbn [negb].
      + apply mem_In in Emem. destruct (mem m (n :: stack)) eqn:Est.
        * apply mem_In in Est. left. eexists. split; [reflexivity|].
          eapply path_cycle; [apply Hinv1|exact Em|exact Est].
        * apply mem_not_In in Est.
          destruct (IHns vis1 fin1) as [H|(vis2 & new & H1 & H2 & H3)]; auto.
          { intros v Hv'. apply Hns. now right. }
          right. exists vis2, new. split; auto. split; auto. intros v [<-|Hv']; auto.
          apply in_or_app. right. apply Hinv1 in Emem. tauto.
      + apply mem_not_In in Emem.
        destruct (IHf m vis1 (n :: stack) fin1) as [(st & H1 & H2)|(vis2 & new & H1 & H2 & H3)]; auto.
        { apply edge_node with n. exact Em. }
        * rewrite H1. left. eauto.
        * rewrite H1.
          assert (Hincl : incl vis1 vis2).
          { intros x Hx. apply Hinv1 in Hx. apply H2. destruct Hx; auto. right. apply in_or_app; auto. }
          destruct (IHns vis2 (new ++ fin1)) as [H|(vis3 & new' & G1 & G2 & G3)]; auto.
          { intros v Hv'. apply Hns. now right. }
          { pose proof (unvisited_mono _ _ Hincl). lia. }
          right. exists vis3, (new' ++ new). rewrite <- app_assoc. split; auto. split; auto.
          intros v [<-|Hv']; auto. apply in_or_app; right. apply in_or_app; left. exact H3. }
  assert (Hinv0 : cinv (n :: vis) (n :: stack) fin).
  { repeat split; auto.
    - simpl. rewrite Hv. tauto.
    - simpl. rewrite Hv. tauto.
    - intros x [<-|Hx]; [tauto|auto].
    - constructor; tauto. }
  destruct (Hloop (neighbours g n) (n :: vis) fin) as [(st & H1 & H2)|(vis2 & new & H1 & H2 & H3)]; auto.
  { intros v. apply neighbours_edge. }
  { lia. }
  - rewrite H1. left. eauto.
  - rewrite H1. right. exists vis2, (n :: new). 
    assert (Hrm : remove string_dec n (n :: stack) = stack).
    { simpl. destruct (string_dec n n); [|congruence]. apply notin_remove. tauto. }
    rewrite Hrm. split; auto. split; [|now left].
    destruct H2 as (G1 & G2 & G3 & G4 & G5).
    repeat split.
    + intros H. apply G1 in H. simpl in *. tauto.
    + intros H. apply G1. simpl in *. tauto.
    + intros x Hx [->|H]; [tauto|]. apply (G2 x); simpl; auto.
    + exact Hs.
    + exact Hp.
    + apply G2. now left.
    + intros v E. apply H3. now apply neighbours_edge.
    + exact G5.
Qed.

Theorem check_cycles_spec : exists b, check_cycles g = Some b /\ (b = true <-> cyclic g).
Proof.
  unfold check_cycles.
  match goal with |- exists b, ?l g _ = _ /\ _ => set (loop := l) end.
  assert (H : forall ps vis fin, incl ps g -> cinv vis [] fin ->
     (loop ps (vis, []) = Some true /\ cyclic g)
     \/ (loop ps (vis, []) = Some false /\ exists fin', closed fin' /\ incl fin fin'
           /\ forall p, In p ps -> In (fst p) fin')).
  { induction ps as [|p ps IH]; intros vis fin Hincl Hinv.
    - right. split; auto. exists fin. split; [apply Hinv|]. split; [apply incl_refl|]. intros ? [].
    - cbn [loop]. fold loop. cbn [fst]. destruct (mem (fst p) vis) eqn:E.
      + apply mem_In in E. destruct (IH vis fin) as [?|(H1 & fin' & H2 & H3 & H4)]; auto.
        { intros x Hx. apply Hincl. now right. }
        right. split; auto. exists fin'. repeat split; auto. intros q [<-|Hq]; auto.
        apply H3. apply Hinv in E. destruct E as [[]|]; auto.
      + apply mem_not_In in E.
        destruct (cyc_dfs_spec (fuel_of g) (fst p) vis [] fin) as [(st & H1 & H2)|(vis' & new & H1 & H2 & H3)]; auto.
        { left. apply in_map, Hincl. now left. }
        { pose proof (unvisited_fuel vis). lia. }
        * rewrite H1. left. auto.
        * rewrite H1. destruct (IH vis' (new ++ fin)) as [?|(G1 & fin' & G2 & G3 & G4)]; auto.
          { intros x Hx. apply Hincl. now right. }
          right. split; auto. exists fin'. repeat split; auto.
          { intros x Hx. apply G3, in_or_app. now right. }
          { intros q [<-|Hq]; auto. apply G3, in_or_app. now left. } }
  destruct (H g [] []) as [[H1 H2]|(H1 & fin & H2 & _ & H4)]; [apply incl_refl| | |].
  - repeat split; simpl; try tauto. constructor.
  - exists true. tauto.
  - exists false. split; auto. split; [discriminate|]. intros (u & Hu). exfalso.
    apply (closed_acyclic fin u); auto.
    assert (Hk : In u (map fst g)).
    { apply clos_trans_t1n in Hu.
      inversion Hu as [y E|y z E Hr]; subst; destruct E as (ns & Hin & _);
        change u with (fst (u, ns)); now apply in_map. }
    apply in_map_iff in Hk as (p & <- & Hp). auto.
Qed.

(** ** topological sort *)
Definition tinv (vis stack res : list string) : Prop :=
  (forall x, In x vis <-> In x stack \/ In x res)
  /\ (forall x, In x stack -> ~ In x res) /\ path stack /\ closed (rev res)
  /\ (forall x, In x res -> node g x).

Hypothesis acyclic : ~ cyclic g.

Lemma topo_dfs_spec fuel : forall n vis stack res,
  tinv vis stack res -> ~ In n vis -> node g n ->
  match stack with [] => True | m :: _ => edge g m n end ->
  length (unvisited vis) <= fuel ->
  exists vis' new, topo_dfs fuel g n (vis, res) = Some (vis', res ++ new)
        /\ tinv vis' stack (res ++ new) /\ In n new.
Proof.
  induction fuel as [|f IHf]; intros n vis stack res Hinv Hn Hnode Hedge Hfuel.
  { pose proof (unvisited_cons n vis Hnode Hn). lia. }
  cbn [topo_dfs].
  pose proof (unvisited_cons n vis Hnode Hn) as Hdec.
  match goal with |- context [fold_left ?fn (neighbours g n) _] => set (step := fn) end.
  destruct Hinv as (Hv & Hd & Hp & Hc & Hnd).
  assert (Hn1 : ~ In n stack /\ ~ In n res) by (split; intros H; apply Hn, Hv; auto).
  assert (Hloop : forall ns vis1 res1,
      (forall v, In v ns -> edge g n v) ->
      tinv vis1 (n :: stack) res1 ->
      length (unvisited vis1) <= f ->
      exists vis2 new, fold_left step ns (Some (vis1, res1)) = Some (vis2, res1 ++ new)
            /\ tinv vis2 (n :: stack) (res1 ++ new) /\ forall v, In v ns -> In v (res1 ++ new)).
  { induction ns as [|m ns IHns]; intros vis1 res1 Hns Hinv1 Hf1.
    - exists vis1, []. rewrite app_nil_r. split; auto. split; auto. intros v [].
    - assert (Em : edge g n m) by (apply Hns; now left).
      cbn [fold_left]. unfold step at 2. destruct (mem m vis1) eqn:Emem.
      + apply mem_In in Emem.
        assert (Est : ~ In m (n :: stack)).
        { intros H. apply acyclic. eapply path_cycle; [apply Hinv1|exact Em|exact H]. }
        destruct (IHns vis1 res1) as (vis2 & new & H1 & H2 & H3); auto.
        { intros v Hv'. apply Hns. now right. }
        exists vis2, new. split; auto. split; auto. intros v [<-|Hv']; auto.
        apply in_or_app. left. apply Hinv1 in Emem. tauto.
      + apply mem_not_In in Emem.
        destruct (IHf m vis1 (n :: stack) res1) as (vis2 & new & H1 & H2 & H3); auto.
        { apply edge_node with n. exact Em. }
        rewrite H1.
        assert (Hincl : incl vis1 vis2).
        { intros x Hx. apply Hinv1 in Hx. apply H2. destruct Hx; auto. right. apply in_or_app; auto. }
        destruct (IHns vis2 (res1 ++ new)) as (vis3 & new' & G1 & G2 & G3); auto.
        { intros v Hv'. apply Hns. now right. }
        { pose proof (unvisited_mono _ _ Hincl). lia. }
        exists vis3, (new ++ new'). rewrite app_assoc. split; auto. split; auto.
        intros v [<-|Hv']; auto. apply in_or_app; left. apply in_or_app; right. exact H3. }
  assert (Hinv0 : tinv (n :: vis) (n :: stack) res).
  { repeat split; auto.
    - simpl. rewrite Hv. tauto.
    - simpl. rewrite Hv. tauto.
    - intros x [<-|Hx]; [tauto|auto]. }
  destruct (Hloop (neighbours g n) (n :: vis) res) as (vis2 & new & H1 & H2 & H3); auto.
  { intros v. apply neighbours_edge. }
  { lia. }
  rewrite H1. exists vis2, (new ++ [n]). rewrite app_assoc. split; auto.
  split; [|apply in_or_app; right; now left].
  destruct H2 as (G1 & G2 & G4 & G5 & G6).
  assert (Hnn : ~ In n (res ++ new)) by (apply G2; now left).
  repeat split.
  - intros H. apply G1 in H. rewrite in_app_iff. simpl in *. tauto.
  - intros H. apply G1. rewrite in_app_iff in H. simpl in *. tauto.
  - intros x Hx H. apply in_app_or in H as [H|[->|[]]]; [|tauto]. apply (G2 x); simpl; auto.
  - exact Hp.
  - rewrite rev_app_distr. simpl. split; [|split]; auto.
    + now rewrite <- in_rev.
    + intros v E. rewrite <- in_rev. apply H3. now apply neighbours_edge.
  - intros x H. apply in_app_or in H as [H|[<-|[]]]; auto.
Qed.

Theorem topological_sort_spec : exists r, topological_sort g = Some r
  /\ NoDup r /\ (forall x, In x r <-> node g x) /\ (forall u v, edge g u v -> before r u v).
Proof.
  unfold topological_sort.
  match goal with |- context [fold_left ?fn g _] => set (step := fn) end.
  assert (H : forall ps vis res, incl ps g -> tinv vis [] res ->
     exists vis' res', fold_left step ps (Some (vis, res)) = Some (vis', res')
       /\ tinv vis' [] res' /\ incl res res' /\ forall p, In p ps -> In (fst p) res').
  { induction ps as [|p ps IH]; intros vis res Hincl Hinv.
    - exists vis, res. repeat split; auto; try apply Hinv. apply incl_refl. intros ? [].
    - cbn [fold_left]. unfold step at 2. destruct (mem (fst p) vis) eqn:E.
      + apply mem_In in E. destruct (IH vis res) as (vis' & res' & H1 & H2 & H3 & H4); auto.
        { intros x Hx. apply Hincl. now right. }
        exists vis', res'. split; auto. split; auto. split; auto. intros q [<-|Hq]; auto.
        apply H3. apply Hinv in E. destruct E as [[]|]; auto.
      + apply mem_not_In in E.
        destruct (topo_dfs_spec (fuel_of g) (fst p) vis [] res) as (vis' & new & H1 & H2 & H3); auto.
        { left. apply in_map, Hincl. now left. }
        { pose proof (unvisited_fuel vis). lia. }
        rewrite H1. destruct (IH vis' (res ++ new)) as (vis2 & res' & G1 & G2 & G3 & G4); auto.
        { intros x Hx. apply Hincl. now right. }
        exists vis2, res'. split; auto. split; auto. split.
        { intros x Hx. apply G3, in_or_app. now left. }
        { intros q [<-|Hq]; auto. apply G3, in_or_app. now right. } }
  destruct (H g [] []) as (vis & res & H1 & H2 & _ & H4); [apply incl_refl| |].
  - repeat split; simpl; try tauto.
  - rewrite H1. exists (rev res). split; auto. destruct H2 as (G1 & G2 & G3 & G4 & G5).
    assert (Hin : forall x, In x (rev res) <-> node g x).
    { intros x. rewrite <- in_rev. split; auto. intros Hx.
      assert (Hkey : forall u, In u (map fst g) -> In u res).
      { intros u Hu. apply in_map_iff in Hu as (p & <- & Hp). auto. }
      destruct Hx as [Hx|(u & E)]; auto.
      rewrite in_rev. eapply closed_down; eauto. rewrite <- in_rev. apply Hkey.
      destruct E as (ns & E & _). change u with (fst (u, ns)). now apply in_map. }
    split; [now apply closed_NoDup|]. split; auto.
    intros u v E. apply closed_before; auto. apply Hin. left. destruct E as (ns & E & _).
    change u with (fst (u, ns)). now apply in_map.
Qed.
End G.
