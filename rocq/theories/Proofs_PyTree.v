From Coq Require Import String List ZArith Bool Lia.
From Verif Require Import Model_PyTree Spec_PyTree.
Import ListNotations.
Open Scope string_scope.

Section Induction.
Context (P : val -> Prop).
Context (HL : forall x, P (Leaf x)) (HS : forall l, Forall P l -> P (Seq l))
  (HD : forall d, Forall (fun kv => P (snd kv)) d -> P (Dict d))
  (HO : forall n a, Forall (fun kv => P (snd kv)) a -> P (Obj n a)).
Fixpoint val_nested (v : val) : P v :=
  match v with
  | Leaf x => HL x
  | Seq l => HS l ((fix go l : Forall P l := match l with [] => Forall_nil _ | x :: r => Forall_cons _ (val_nested x) (go r) end) l)
  | Dict d => HD d ((fix go (l : list (string * val)) : Forall (fun kv => P (snd kv)) l :=
      match l with [] => Forall_nil _ | x :: r => Forall_cons x (val_nested (snd x)) (go r) end) d)
  | Obj n a => HO n a ((fix go (l : list (string * val)) : Forall (fun kv => P (snd kv)) l :=
      match l with [] => Forall_nil _ | x :: r => Forall_cons x (val_nested (snd x)) (go r) end) a)
  end.
End Induction.

Lemma all_Forall {A} (Q : A -> Prop) l : fold_right (fun x acc => Q x /\ acc) True l <-> Forall Q l.
Proof.
  induction l as [|x l IH]; simpl. { split; auto. }
  split. { intros [H1 H2]. constructor; tauto. } intros H. inversion H; subst. tauto.
Qed.

(** ** lists *)
Lemma traverse_some {A B} (g : A -> option B) (h : A -> B) l :
  Forall (fun x => g x = Some (h x)) l -> traverse (map g l) = Some (map h l).
Proof. induction 1 as [|x l E _ IH]; cbn; [auto|]. rewrite E, IH. reflexivity. Qed.

Lemma Forall_choice {A B} (Q : A -> B -> Prop) l : Forall (fun x => exists y, Q x y) l -> exists ys, Forall2 Q l ys.
Proof. induction 1 as [|x l [y Hy] _ [ys IH]]; [exists []; constructor|exists (y :: ys); now constructor]. Qed.

Lemma traverse_Forall2 {A B} (g : A -> option B) l ys : Forall2 (fun x y => g x = Some y) l ys -> traverse (map g l) = Some ys.
Proof. induction 1 as [|x y l ys E _ IH]; cbn; [auto|]. rewrite E, IH. reflexivity. Qed.

Lemma assoc_map {A B} (g : A -> B) k (l : list (string * A)) :
  assoc k (map (fun kv => (fst kv, g (snd kv))) l) = option_map g (assoc k l).
Proof. induction l as [|[k' v] l IH]; cbn; [auto|]. destruct (String.eqb k k'); auto. Qed.

Lemma assoc_some {A} k (l : list (string * A)) : In k (map fst l) -> exists v, assoc k l = Some v.
Proof.
  induction l as [|[k' v] l IH]; cbn; [tauto|]. intros H. destruct (String.eqb_spec k k'); [eauto|].
  apply IH. destruct H; [congruence|auto].
Qed.
Lemma assoc_in {A} k (l : list (string * A)) v : assoc k l = Some v -> In (k, v) l.
Proof.
  induction l as [|[k' w] l IH]; cbn; [discriminate|]. destruct (String.eqb_spec k k'); [|auto].
  intros E. left. congruence.
Qed.
Lemma assoc_none {A} k (l : list (string * A)) : ~ In k (map fst l) -> assoc k l = None.
Proof.
  induction l as [|[k' v] l IH]; cbn; [auto|]. intros H. destruct (String.eqb_spec k k'); [subst; tauto|]. apply IH. tauto.
Qed.
Lemma assoc_fst {A} k (l : list (string * A)) v : assoc k l = Some v -> In k (map fst l).
Proof. intros H. apply assoc_in in H. apply (in_map fst) in H. exact H. Qed.
Lemma assoc_app {A} k (l1 l2 : list (string * A)) : assoc k (l1 ++ l2) = match assoc k l1 with Some v => Some v | None => assoc k l2 end.
Proof. induction l1 as [|[k' v] l1 IH]; cbn; [auto|]. destruct (String.eqb k k'); auto. Qed.

Lemma assoc_combine {A} (src : string -> option A) names vals k :
  Forall2 (fun n v => src n = Some v) names vals ->
  assoc k (combine names vals) = if existsb (String.eqb k) names then src k else None.
Proof.
  induction 1 as [|n v names vals E _ IH]; cbn; [auto|]. destruct (String.eqb_spec k n); [now subst|]. exact IH.
Qed.

Lemma Forall2_len {A B} (Q : A -> B -> Prop) l l' : Forall2 Q l l' -> length l = length l'.
Proof. induction 1; cbn; auto. Qed.

Lemma Forall2_nth {A B} (Q : A -> B -> Prop) l l' i : Forall2 Q l l' ->
  match nth_error l i, nth_error l' i with Some x, Some y => Q x y | None, None => True | _, _ => False end.
Proof. intros H. revert i. induction H; intros [|i]; cbn; auto. apply IHForall2. Qed.

Lemma combine_assoc {A B} (Q : A -> B -> Prop) (d : list (string * A)) ys k : Forall2 (fun kv y => Q (snd kv) y) d ys ->
  match assoc k d, assoc k (combine (map fst d) ys) with Some x, Some y => Q x y | None, None => True | _, _ => False end.
Proof.
  induction 1 as [|[k' x] y d ys E _ IH]; cbn; [auto|]. destruct (String.eqb k k'); [exact E|exact IH].
Qed.

Lemma map_fst_combine {A B} (l : list A) (l' : list B) : length l = length l' -> map fst (combine l l') = l.
Proof. revert l'. induction l as [|x l IH]; intros [|y l'] E; cbn in *; try congruence. f_equal. apply IH. congruence. Qed.

(** ** the classes *)
Definition memb (k : string) (l : list string) : bool := existsb (String.eqb k) l.
Lemma memb_in k l : memb k l = true <-> In k l.
Proof.
  unfold memb. rewrite existsb_exists. split.
  - intros (x & H & E). apply String.eqb_eq in E. now subst.
  - intros H. exists k. split; [auto|apply String.eqb_refl].
Qed.

Definition sound_class (c : class) : bool :=
  forallb (fun k => memb k (init c)) (data c ++ aux c)
  && forallb (fun k => negb (memb k (aux c))) (data c)
  && forallb (fun k => memb k (data c ++ aux c)
       || (String.eqb (name c) "BlockTransform" && (String.eqb k "domain" || String.eqb k "codomain"))) (init c).
Lemma classes_sound : forallb sound_class classes = true.
Proof. vm_compute. reflexivity. Qed.

Lemma class_of_in n c : class_of n = Some c -> In c classes /\ name c = n.
Proof. intros H. apply find_some in H. destruct H as [H E]. apply String.eqb_eq in E. auto. Qed.

Lemma class_facts n c : class_of n = Some c ->
  (forall k, In k (data c) \/ In k (aux c) -> In k (init c))
  /\ (forall k, In k (data c) -> ~ In k (aux c))
  /\ (forall k, In k (init c) -> In k (data c) \/ In k (aux c) \/ (n = "BlockTransform" /\ (k = "domain" \/ k = "codomain"))).
Proof.
  intros H. apply class_of_in in H. destruct H as [H <-].
  pose proof (proj1 (forallb_forall _ _) classes_sound c H) as S. unfold sound_class in S.
  rewrite !andb_true_iff, !forallb_forall in S. destruct S as [[S1 S2] S3]. repeat split.
  - intros k K. apply memb_in, S1, in_or_app, K.
  - intros k K L. specialize (S2 k K). apply memb_in in L. rewrite L in S2. discriminate.
  - intros k K. specialize (S3 k K). apply orb_prop in S3. destruct S3 as [S3|S3].
    + apply memb_in, in_app_or in S3. tauto.
    + apply andb_prop in S3. destruct S3 as [A B]. apply String.eqb_eq in A. apply orb_prop in B.
      right. right. split; [auto|]. destruct B as [B|B]; apply String.eqb_eq in B; auto.
Qed.

(** ** the main lemma *)
Local Opaque class_of class_attr.
Section Main.
Context (own : string -> string -> option val) (f : leaf -> leaf).

Definition agrees (v v' : val) : Prop := forall p, avoids_domain p \/ no_block v ->
  look own p v' = option_map (fun s => if static_path p v then s else see_map f s) (look own p v).

Lemma avoids_tail s p : avoids_domain (s :: p) -> avoids_domain p.
Proof. intros [A B]. split; intros K; [apply A|apply B]; now right. Qed.

Lemma option_map_id {A} (o : option A) : option_map (fun s => s) o = o. Proof. now destruct o. Qed.

Lemma static_all p v : static_path p v = true -> forall (o : option seen), option_map (fun s => if static_path p v then s else see_map f s) o = o.
Proof. intros E o. rewrite E. apply option_map_id. Qed.

Lemma getattrs_ok {A} names (attrs : list (string * A)) : (forall k, In k names -> In k (map fst attrs)) ->
  exists vs, getattrs names attrs = Some vs /\ Forall2 (fun k v => assoc k attrs = Some v) names vs.
Proof.
  intros H. unfold getattrs. induction names as [|k names IH]; cbn. { exists []. split; constructor. }
  destruct (assoc_some k attrs) as (v & E). { apply H. now left. }
  destruct IH as (vs & E2 & F). { intros x K. apply H. now right. }
  exists (v :: vs). rewrite E, E2. split; [auto|now constructor].
Qed.

Lemma tree_map_agrees v : built v -> exists v', tree_map f v = Some v' /\ agrees v v'.
Proof.
  induction v as [x|l IH|d IH|n attrs IH] using val_nested; intros B.
  - exists (Leaf (f x)). split; [reflexivity|]. intros [|s p] _; [reflexivity|]. destruct s; reflexivity.
  - cbn in B. apply all_Forall in B.
    assert (F : Forall (fun x => exists y, tree_map f x = Some y /\ agrees x y) l).
    { rewrite Forall_forall in *. intros x K. apply IH; auto. }
    apply Forall_choice in F. destruct F as (ys & F).
    exists (Seq ys). split.
    { cbn. rewrite (traverse_Forall2 _ l ys); [reflexivity|]. clear -F. induction F; constructor; tauto. }
    intros p Hp. destruct p as [|s p]. { unfold look. cbn. now rewrite (Forall2_len _ _ _ F). }
    destruct s as [a|i|k]; try reflexivity. unfold look. cbn.
    pose proof (Forall2_nth _ _ _ i F) as N. destruct (nth_error l i) as [x|] eqn:E1, (nth_error ys i) as [y|] eqn:E2; try contradiction; try reflexivity.
    apply N. destruct Hp as [Hp|Hp]; [left; exact (avoids_tail _ _ Hp)|right].
    cbn in Hp. apply all_Forall in Hp. rewrite Forall_forall in Hp. apply Hp. eapply nth_error_In; eauto.
  - cbn in B. apply (all_Forall (fun kv => built (snd kv))) in B.
    assert (F : Forall (fun kv => exists y, tree_map f (snd kv) = Some y /\ agrees (snd kv) y) d).
    { rewrite Forall_forall in *. intros x K. apply IH; auto. }
    apply Forall_choice in F. destruct F as (ys & F).
    exists (Dict (combine (map fst d) ys)). split.
    { cbn. rewrite (traverse_Forall2 (fun kv => tree_map f (snd kv)) d ys); [reflexivity|]. clear -F. induction F; constructor; tauto. }
    intros p Hp. destruct p as [|s p]. { unfold look. cbn. rewrite map_fst_combine; [reflexivity|]. rewrite map_length. exact (Forall2_len _ _ _ F). }
    destruct s as [a|i|k]; try reflexivity. unfold look. cbn.
    pose proof (combine_assoc (fun x y => tree_map f x = Some y /\ agrees x y) d ys k F) as N.
    destruct (assoc k d) as [x|] eqn:E1, (assoc k (combine (map fst d) ys)) as [y|] eqn:E2; try contradiction; try reflexivity.
    apply N. destruct Hp as [Hp|Hp]; [left; exact (avoids_tail _ _ Hp)|right].
    cbn in Hp. apply (all_Forall (fun kv => no_block (snd kv))) in Hp. rewrite Forall_forall in Hp. apply (Hp (k, x)). now apply assoc_in.
  - cbn in B. destruct B as ((c & Hc & Hi) & B). apply (all_Forall (fun kv => built (snd kv))) in B.
    destruct (class_facts n c Hc) as (F1 & F2 & F3).
    destruct (getattrs_ok (data c) (map (fun kv => (fst kv, tree_map f (snd kv))) attrs)) as (ch & E1 & A1).
    { intros k K. rewrite map_map. cbn. change (In k (map fst attrs)). rewrite Hi. auto. }
    destruct (getattrs_ok (aux c) attrs) as (st & E2 & A2). { intros k K. rewrite Hi. auto. }
    assert (A1' : Forall (fun o => exists y, o = Some y) ch).
    { clear E1 F1 F2 F3 A2 E2 Hi Hc. induction A1 as [|k o names ch E A1 IHA]; constructor.
      - rewrite assoc_map in E. destruct (assoc k attrs) as [w|] eqn:Ek; [|discriminate]. cbn in E. injection E as <-.
        apply assoc_in in Ek. rewrite Forall_forall in IH, B. destruct (IH _ Ek (B _ Ek)) as (y & Ey & _). now exists y.
      - exact IHA. }
    apply Forall_choice in A1'. destruct A1' as (ys & A1').
    assert (T : traverse ch = Some ys).
    { clear -A1'. induction A1' as [|o y ch ys -> _ IHA]; cbn; [auto|]. now rewrite IHA. }
    assert (D : Forall2 (fun k y => (match assoc k attrs with Some w => tree_map f w | None => None end) = Some y) (data c) ys).
    { clear -A1 A1'. revert ys A1'. induction A1 as [|k o names ch E A1 IHA]; intros ys A1'; inversion A1'; subst; constructor; auto.
      rewrite assoc_map in E. destruct (assoc k attrs); [cbn in E; congruence|discriminate]. }
    exists (tree_unflatten c st ys). split. { cbn. rewrite Hc, E1, E2, T. reflexivity. }
    pose proof (class_of_in n c Hc) as [_ Hn]. unfold tree_unflatten. rewrite Hn.
    intros p Hp. destruct p as [|s p]. { reflexivity. }
    destruct s as [a|i|k]; try reflexivity.
    assert (LA : assoc a (combine (data c) ys ++ combine (aux c) st) =
      match (if memb a (data c) then match assoc a attrs with Some w => tree_map f w | None => None end else None) with
      | Some v => Some v | None => if memb a (aux c) then assoc a attrs else None end).
    { rewrite assoc_app, (assoc_combine _ _ _ a D), (assoc_combine _ _ _ a A2). reflexivity. }
    unfold look. cbn [read static_path]. rewrite LA, Hc. fold (memb a (aux c)).
    destruct (assoc a attrs) as [w|] eqn:Ea.
    + pose proof (assoc_fst _ _ _ Ea) as Ia. rewrite Hi in Ia. pose proof (assoc_in _ _ _ Ea) as Iw.
      destruct (memb a (aux c)) eqn:Ma.
      { apply memb_in in Ma. destruct (memb a (data c)) eqn:Md. { apply memb_in in Md. exfalso. exact (F2 _ Md Ma). }
        now rewrite option_map_id. }
      destruct (F3 a Ia) as [ Hd | [ Ha | [ Hblk Hda ] ] ].
      * apply memb_in in Hd. rewrite Hd. rewrite Forall_forall in IH, B. destruct (IH _ Iw (B _ Iw)) as (y & Ey & Ag). cbn in Ey, Ag. rewrite Ey.
        apply Ag. destruct Hp as [Hp|Hp]; [left; exact (avoids_tail _ _ Hp)|right].
        cbn in Hp. destruct Hp as [_ Hp]. apply (all_Forall (fun kv => no_block (snd kv))) in Hp. rewrite Forall_forall in Hp. exact (Hp _ Iw).
      * apply memb_in in Ha. congruence.
      * exfalso. destruct Hp as [ [P1 P2] | Hp ].
        { destruct Hda as [E|E]; subst a; [apply P1|apply P2]; now left. }
        cbn in Hp. tauto.
    + assert (Na : ~ In a (init c)). { intros K. rewrite <- Hi in K. destruct (assoc_some a attrs K). congruence. }
      destruct (memb a (data c)) eqn:Md. { apply memb_in in Md. exfalso. apply Na. auto. }
      destruct (memb a (aux c)); destruct (class_attr own n a) as [w|]; rewrite option_map_id; reflexivity.
Qed.
End Main.

(** the static attributes of all classes *)
Lemma static_table : forallb (fun c => forallb (fun a =>
  let dom := String.eqb a "domain" || String.eqb a "codomain" in
  if static_attribute (name c) a then dom || memb a (aux c) else negb dom && negb (memb a (aux c))) (init c)) classes = true.
Proof. vm_compute. reflexivity. Qed.

Lemma static_facts n c a : class_of n = Some c -> In a (init c) ->
  if static_attribute n a then a = "domain" \/ a = "codomain" \/ memb a (aux c) = true
  else a <> "domain" /\ a <> "codomain" /\ memb a (aux c) = false.
Proof.
  intros Hc Ia. destruct (class_of_in n c Hc) as [Ic <-]. pose proof static_table as T.
  rewrite forallb_forall in T. specialize (T c Ic). rewrite forallb_forall in T. specialize (T a Ia). cbv beta zeta in T.
  destruct (static_attribute (name c) a).
  - rewrite !orb_true_iff, !String.eqb_eq in T. tauto.
  - rewrite andb_true_iff, !negb_true_iff, orb_false_iff, !String.eqb_neq in T. tauto.
Qed.
