(** Lemmas on shapes: broadcasting is a commutative, associative and idempotent partial operation. *)
From Coq Require Import List Arith Bool Lia.
From Verif Require Import Model_Shapes Spec_Shapes.
Import ListNotations.

Lemma dim_comm x y : dim x y = dim y x.
Proof.
  unfold dim. destruct (Nat.eqb_spec x 1) as [->|Hx]; destruct (Nat.eqb_spec y 1) as [->|Hy]; try reflexivity.
  rewrite (Nat.eqb_sym y x). destruct (Nat.eqb_spec x y) as [->|]; reflexivity.
Qed.
Lemma dim_idem x : dim x x = Some x.
Proof. unfold dim. destruct (x =? 1); [reflexivity|]. rewrite Nat.eqb_refl. reflexivity. Qed.
Definition obind {A B} (o : option A) (f : A -> option B) : option B := match o with Some a => f a | None => None end.
Lemma dim_assoc x y z : obind (dim y z) (dim x) = obind (dim x y) (fun d => dim d z).
Proof.
  unfold dim, obind. destruct (Nat.eqb_spec x 1) as [->|Hx].
  - destruct (Nat.eqb_spec y 1) as [->|Hy]; [reflexivity|]. destruct (Nat.eqb_spec z 1); [reflexivity|]. destruct (y =? z); reflexivity.
  - destruct (Nat.eqb_spec y 1) as [->|Hy].
    + cbn. destruct (Nat.eqb_spec x 1); [contradiction|]. reflexivity.
    + destruct (Nat.eqb_spec z 1) as [->|Hz].
      * destruct (Nat.eqb_spec y 1); [contradiction|]. destruct (Nat.eqb_spec x y) as [->|]; [|reflexivity].
        destruct (Nat.eqb_spec y 1); [contradiction|reflexivity].
      * destruct (Nat.eqb_spec y z) as [->|Hyz].
        { destruct (Nat.eqb_spec z 1); [contradiction|]. destruct (Nat.eqb_spec x z) as [->|]; [|reflexivity].
          destruct (Nat.eqb_spec z 1); [contradiction|]. rewrite Nat.eqb_refl. reflexivity. }
        { destruct (Nat.eqb_spec x y) as [->|]; [|reflexivity]. destruct (Nat.eqb_spec y 1); [contradiction|].
          destruct (Nat.eqb_spec y z); [contradiction|reflexivity]. }
Qed.
Lemma rbro_nil_r a : rbro a [] = Some a. Proof. destruct a; reflexivity. Qed.
Lemma rbro_comm a : forall b, rbro a b = rbro b a.
Proof.
  induction a as [|x a IH]; intros [|y b]; try reflexivity. cbn. rewrite dim_comm, IH. reflexivity.
Qed.
Lemma rbro_idem a : rbro a a = Some a.
Proof. induction a as [|x a IH]; [reflexivity|]. cbn. rewrite dim_idem, IH. reflexivity. Qed.
Lemma rbro_assoc a : forall b c, obind (rbro b c) (rbro a) = obind (rbro a b) (fun d => rbro d c).
Proof.
  induction a as [|x a IH]; intros b c.
  - cbn. destruct (rbro b c); reflexivity.
  - destruct b as [|y b]; [reflexivity|]. destruct c as [|z c].
    { rewrite rbro_nil_r. cbn [obind]. destruct (rbro (x :: a) (y :: b)) eqn:E; cbn [obind]; [rewrite rbro_nil_r|]; reflexivity. }
    cbn. pose proof (dim_assoc x y z) as Hd. specialize (IH b c). unfold obind in *.
    destruct (dim y z) as [d1|], (dim x y) as [d2|]; cbn in *.
    + destruct (rbro b c) as [r1|], (rbro a b) as [r2|]; cbn in *; try reflexivity.
      * rewrite Hd, IH. reflexivity.
      * rewrite IH. destruct (dim x d1); reflexivity.
      * rewrite <- IH. destruct (dim d2 z); reflexivity.
    + destruct (rbro b c) as [r1|]; cbn; [rewrite Hd|]; reflexivity.
    + destruct (rbro a b) as [r2|]; cbn; [rewrite <- Hd|]; reflexivity.
    + reflexivity.
Qed.
Lemma bro_comm a b : bro a b = bro b a.
Proof. destruct a as [a|], b as [b|]; cbn; try reflexivity. rewrite rbro_comm. reflexivity. Qed.
Lemma bro_idem a : bro a a = a.
Proof. destruct a as [a|]; [|reflexivity]. cbn. rewrite rbro_idem. cbn. rewrite rev_involutive. reflexivity. Qed.
Lemma bro_assoc a b c : bro a (bro b c) = bro (bro a b) c.
Proof.
  destruct a as [a|], b as [b|]; try reflexivity. destruct c as [c|]; [|cbn; destruct (rbro (rev a) (rev b)); reflexivity].
  cbn. pose proof (rbro_assoc (rev a) (rev b) (rev c)) as H. unfold obind in H.
  destruct (rbro (rev b) (rev c)) as [r1|], (rbro (rev a) (rev b)) as [r2|]; cbn; rewrite ?rev_involutive; try reflexivity.
  - rewrite H. reflexivity.
  - rewrite H. reflexivity.
  - rewrite <- H. reflexivity.
Qed.
Lemma bro_unit a : bro (Some []) a = a.
Proof. destruct a as [a|]; [|reflexivity]. cbn. rewrite rev_involutive. reflexivity. Qed.
Lemma bro_unit_r a : bro a (Some []) = a.
Proof. rewrite bro_comm. apply bro_unit. Qed.
Lemma ew_app l1 l2 : elementwise (l1 ++ l2) = bro (elementwise l1) (elementwise l2).
Proof. induction l1 as [|x l1 IH]; cbn [app elementwise fold_right]; [symmetry; apply bro_unit|].
  fold (elementwise (l1 ++ l2)). rewrite IH. apply bro_assoc. Qed.
Lemma ew_in x l : In x l -> bro x (elementwise l) = elementwise l.
Proof.
  induction l as [|y l IH]; [intros []|]. cbn [elementwise fold_right]. fold (elementwise l). intros [->|H].
  - rewrite bro_assoc, bro_idem. reflexivity.
  - rewrite bro_assoc, (bro_comm x y), <- bro_assoc, (IH H). reflexivity.
Qed.
Lemma ew_incl l l' : incl l l' -> bro (elementwise l) (elementwise l') = elementwise l'.
Proof.
  induction l as [|x l IH]; intros H; [apply bro_unit|]. cbn [elementwise fold_right]. fold (elementwise l).
  rewrite <- bro_assoc, IH; [apply ew_in, H; left; reflexivity|]. intros y Hy. apply H. right. exact Hy.
Qed.
Lemma ew_ext l l' : incl l l' -> incl l' l -> elementwise l = elementwise l'.
Proof. intros H1 H2. rewrite <- (ew_incl l l' H1), bro_comm. symmetry. apply ew_incl. exact H2. Qed.

(** equality of two expressions in broadcasts, up to order, repetition and scalars *)
Ltac shapes :=
  cbn [elementwise fold_right]; rewrite ?bro_unit_r, ?bro_unit; rewrite <- ?bro_assoc; rewrite ?bro_unit_r, ?bro_unit;
  let rec lst t := lazymatch t with bro ?a ?r => let l := lst r in constr:(a :: l) | ?a => constr:([a]) end in
  lazymatch goal with
  | |- ?l = ?r =>
    let a := lst l in let b := lst r in
    transitivity (elementwise a); [cbn [elementwise fold_right]; rewrite ?bro_unit_r; reflexivity|];
    transitivity (elementwise b); [|cbn [elementwise fold_right]; rewrite ?bro_unit_r; reflexivity];
    apply ew_ext; intros ? ?HH; cbn [In] in *; tauto
  end.

Lemma ones_fit c : bro (Some (repeat 1 (length c))) (Some c) = Some c.
Proof.
  cbn. assert (H : forall n (l : shp), length l = n -> rbro (repeat 1 n) l = Some l).
  { induction n as [|n IH]; intros [|x l] H; try discriminate; [reflexivity|]. cbn in H. cbn [repeat rbro dim Nat.eqb]. rewrite IH by lia. reflexivity. }
  assert (E : rev (repeat 1 (length c)) = repeat 1 (length c)).
  { generalize (length c). induction n as [|n IH]; [reflexivity|]. cbn. rewrite IH.
    clear. induction n as [|n IH]; [reflexivity|]. cbn. rewrite IH. reflexivity. }
  rewrite E, H by apply rev_length. cbn. rewrite rev_involutive. reflexivity.
Qed.
Lemma rev_ones n : rev (repeat 1 n) = repeat 1 n.
Proof. induction n as [|n IH]; [reflexivity|]. cbn. rewrite IH. clear. induction n as [|n IH]; [reflexivity|]. cbn. rewrite IH. reflexivity. Qed.
Lemma pad_bro s n : length s <= n -> Some (repeat 1 (n - length s) ++ s) = bro (Some s) (Some (repeat 1 n)).
Proof.
  intros H. cbn. rewrite rev_ones.
  assert (E : forall (a : shp) n, length a <= n -> rbro a (repeat 1 n) = Some (a ++ repeat 1 (n - length a))).
  { induction a as [|x a IH]; intros m Hm; [cbn; rewrite Nat.sub_0_r; reflexivity|]. destruct m as [|m]; [cbn in Hm; lia|].
    cbn [repeat rbro length]. unfold dim. rewrite IH by (cbn in Hm; lia). cbn [Nat.eqb]. destruct (Nat.eqb_spec x 1) as [->|]; reflexivity. }
  rewrite E by (rewrite rev_length; exact H). cbn. rewrite rev_app_distr, rev_ones, rev_involutive, rev_length. reflexivity.
Qed.
Lemma rbro_length a : forall b c, rbro a b = Some c -> length c = Nat.max (length a) (length b).
Proof.
  induction a as [|x a IH]; intros b c; cbn; [intros H; injection H as <-; reflexivity|].
  destruct b as [|y b]; [intros H; injection H as <-; cbn; lia|]. destruct (dim x y); [|discriminate].
  destruct (rbro a b) as [r|] eqn:E; [|discriminate]. intros H. injection H as <-. cbn. f_equal. eapply IH. exact E.
Qed.
Lemma bro_length a b c : bro (Some a) (Some b) = Some c -> length c = Nat.max (length a) (length b).
Proof.
  cbn. destruct (rbro (rev a) (rev b)) as [r|] eqn:E; [|discriminate]. intros H. injection H as <-.
  apply rbro_length in E. rewrite rev_length, E, !rev_length. reflexivity.
Qed.
Lemma bs_length l c : broadcast_shapes l = Some c -> length c = list_max (map (@length nat) l).
Proof.
  revert c. induction l as [|s l IH]; intros c; unfold broadcast_shapes; cbn [map elementwise fold_right]; [intros H; injection H as <-; reflexivity|].
  fold (elementwise (map Some l)) (broadcast_shapes l). destruct (broadcast_shapes l) as [r|]; [|discriminate].
  intros H. apply bro_length in H. rewrite H, (IH r eq_refl). reflexivity.
Qed.
Lemma max_in (l : list shp) s : In s l -> length s <= list_max (map (@length nat) l).
Proof.
  intros H. pose proof (proj1 (list_max_le (map (@length nat) l) _) (le_n _)) as F. rewrite Forall_forall in F.
  apply F. apply in_map. exact H.
Qed.
Lemma bs_fits l c s : broadcast_shapes l = Some c -> In s l -> length s <= length c.
Proof.
  intros H Hs. apply bs_length in H. rewrite H. apply max_in. exact Hs.
Qed.
Lemma promote_map l c : broadcast_shapes l = Some c ->
  promote l = map (fun s => bro (Some s) (Some (repeat 1 (length c)))) l.
Proof.
  intros H. unfold promote. rewrite H. apply map_ext_in. intros s Hs. apply pad_bro. eapply bs_fits; eassumption.
Qed.

(** the relation between the dimensions *)
Definition agree (x y z : nat) : Prop := (x = 1 /\ z = y) \/ (y = 1 /\ z = x) \/ (x = y /\ z = x).
Lemma dim_agree x y z : dim x y = Some z <-> agree x y z.
Proof.
  unfold dim, agree. destruct (Nat.eqb_spec x 1) as [->|Hx].
  - split; [intros H; injection H as <-; auto|]. intros [[_ ->]|[[-> ->]|[<- ->]]]; reflexivity.
  - destruct (Nat.eqb_spec y 1) as [->|Hy].
    + split; [intros H; injection H as <-; auto|]. intros [[H _]|[[_ ->]|[H _]]]; try contradiction; reflexivity.
    + destruct (Nat.eqb_spec x y) as [->|Hxy]; split; intros H; try discriminate.
      * injection H as <-. auto.
      * destruct H as [[H _]|[[H _]|[_ ->]]]; try contradiction. reflexivity.
      * destruct H as [[H _]|[[H _]|[H _]]]; contradiction.
Qed.
Lemma rbro_along a : forall b c, rbro a b = Some c -> forall i, agree (nth i a 1) (nth i b 1) (nth i c 1).
Proof.
  induction a as [|x a IH]; intros b c; cbn [rbro].
  - intros H i. injection H as <-. destruct i; left; auto.
  - destruct b as [|y b]; [intros H i; injection H as <-; right; left; destruct i; auto|].
    destruct (dim x y) as [d|] eqn:Ed; [|discriminate]. destruct (rbro a b) as [r|] eqn:Er; [|discriminate].
    intros H i. injection H as <-. destruct i; cbn; [apply dim_agree; exact Ed|]. apply IH. exact Er.
Qed.
Lemma bro_along a b c : bro (Some a) (Some b) = Some c -> forall i, agree (along a i) (along b i) (along c i).
Proof.
  cbn. destruct (rbro (rev a) (rev b)) as [r|] eqn:E; [|discriminate]. intros H i. injection H as <-.
  unfold along. rewrite rev_involutive. eapply rbro_along. exact E.
Qed.
Definition fits (s c : shp) : Prop := length s <= length c /\ forall i, along s i = 1 \/ along s i = along c i.
Lemma rbro_fits a : forall b c, length a <= length c -> length b <= length c ->
  (forall i, nth i a 1 = 1 \/ nth i a 1 = nth i c 1) -> (forall i, nth i b 1 = 1 \/ nth i b 1 = nth i c 1) ->
  exists r, rbro a b = Some r.
Proof.
  induction a as [|x a IH]; intros b c La Lb Ha Hb; [eexists; reflexivity|]. destruct b as [|y b]; [eexists; reflexivity|].
  destruct c as [|z c]; [cbn in La; lia|]. destruct (IH b c) as [r Hr].
  { cbn in La; lia. } { cbn in Lb; lia. } { intros i; exact (Ha (S i)). } { intros i; exact (Hb (S i)). }
  cbn [rbro]. rewrite Hr. pose proof (Ha 0) as H1. pose proof (Hb 0) as H2. cbn in H1, H2. unfold dim.
  destruct (Nat.eqb_spec x 1); [eexists; reflexivity|]. destruct (Nat.eqb_spec y 1); [eexists; reflexivity|].
  destruct (Nat.eqb_spec x y); [eexists; reflexivity|]. exfalso. destruct H1, H2; congruence.
Qed.
Lemma bro_fits a b c : fits a c -> fits b c -> exists r, bro (Some a) (Some b) = Some r /\ fits r c.
Proof.
  intros [La Ha] [Lb Hb]. destruct (rbro_fits (rev a) (rev b) (rev c)) as [r Hr]; rewrite ?rev_length; auto.
  assert (E : bro (Some a) (Some b) = Some (rev r)) by (cbn; rewrite Hr; reflexivity).
  exists (rev r). split; [exact E|]. split; [rewrite (bro_length _ _ _ E); lia|]. intros i.
  destruct (bro_along _ _ _ E i) as [[H1 H2]|[[H1 H2]|[H1 H2]]]; rewrite H2; auto.
Qed.
Lemma bs_exists l c : (forall s, In s l -> fits s c) -> exists r, broadcast_shapes l = Some r /\ fits r c.
Proof.
  induction l as [|s l IH]; intros H.
  - exists []. split; [reflexivity|]. split; [cbn; lia|]. intros i. left. unfold along. destruct i; reflexivity.
  - destruct IH as (r & Hr & Fr); [intros x Hx; apply H; right; exact Hx|].
    destruct (bro_fits s r c) as (q & Hq & Fq); [apply H; left; reflexivity|exact Fr|].
    exists q. split; [|exact Fq]. unfold broadcast_shapes in *. cbn [map elementwise fold_right]. fold (elementwise (map Some l)).
    rewrite Hr. exact Hq.
Qed.
Lemma bs_common l c : broadcast_shapes l = Some c -> common_shape l c.
Proof.
  intros H. split; [apply bs_length; exact H|]. revert c H. induction l as [|s l IH]; intros c.
  - intros H. injection H as <-. split; [intros ? ? []|]. intros i. left. unfold along. destruct i; reflexivity.
  - unfold broadcast_shapes. cbn [map elementwise fold_right]. fold (elementwise (map Some l)) (broadcast_shapes l).
    destruct (broadcast_shapes l) as [r|]; [|discriminate]. intros H. pose proof (bro_along _ _ _ H) as A. clear H.
    destruct (IH r eq_refl) as [I1 I2]. split.
    + intros x i [->|Hx]; specialize (A i).
      * destruct A as [[A1 A2]|[[A1 A2]|[A1 A2]]]; auto.
      * destruct (I1 x i Hx) as [J|J]; [auto|]. destruct A as [[A1 A2]|[[A1 A2]|[A1 A2]]]; rewrite A2, ?J; auto; right; congruence.
    + intros i. specialize (A i). destruct A as [[A1 A2]|[[A1 A2]|[A1 A2]]]; rewrite A2.
      * destruct (I2 i) as [J|(x & Hx & J)]; [auto|]. right. exists x. split; [right; exact Hx|exact J].
      * right. exists s. split; [left; reflexivity|reflexivity].
      * right. exists s. split; [left; reflexivity|reflexivity].
Qed.
Lemma along_ext a b : length a = length b -> (forall i, along a i = along b i) -> a = b.
Proof.
  intros L H. rewrite <- (rev_involutive a), <- (rev_involutive b). f_equal. apply (nth_ext _ _ 1 1); [rewrite !rev_length; exact L|].
  intros i _. apply H.
Qed.
Lemma common_unique l c c' : common_shape l c -> common_shape l c' -> c = c'.
Proof.
  intros (L1 & F1 & M1) (L2 & F2 & M2). apply along_ext; [congruence|]. intros i.
  destruct (M1 i) as [H|(s & Hs & H)].
  - destruct (M2 i) as [H'|(s & Hs & H')]; [congruence|]. destruct (F1 s i Hs) as [J|J]; congruence.
  - destruct (F2 s i Hs) as [J|J]; [|congruence]. destruct (M2 i) as [H'|(s' & Hs' & H')]; [congruence|].
    destruct (F1 s' i Hs') as [J'|J']; congruence.
Qed.
Lemma common_iff l c : broadcast_shapes l = Some c <-> common_shape l c.
Proof.
  split; [apply bs_common|]. intros H. destruct (bs_exists l c) as (r & Hr & _).
  - destruct H as (L & F & _). intros s Hs. split; [|intros i; apply F; exact Hs]. rewrite L. apply max_in. exact Hs.
  - rewrite Hr. f_equal. eapply common_unique; [apply bs_common; exact Hr|exact H].
Qed.

Lemma shape_eqb_eq a b : shape_eqb a b = true <-> a = b.
Proof. unfold shape_eqb. destruct (list_eq_dec Nat.eq_dec a b); split; intros; congruence. Qed.
Lemma unstack_app s k : unstack k (s ++ [k]) = Some s.
Proof. unfold unstack. rewrite rev_app_distr. cbn. rewrite Nat.eqb_refl, rev_involutive. reflexivity. Qed.
Lemma init_app s k : init (s ++ [k]) = Some s.
Proof. unfold init. rewrite rev_app_distr. cbn. rewrite rev_involutive. reflexivity. Qed.
(** the batch absorbs the promoted parameters *)
Lemma bro_back (a b : shp) c : bro (Some a) (Some b) = Some c -> bro (Some c) (Some b) = Some c.
Proof. intros <-. rewrite <- bro_assoc, bro_idem. reflexivity. Qed.
Lemma suffix_fits (ss b : shp) : bro (Some (ss ++ b)) (Some b) = Some (ss ++ b).
Proof.
  cbn. rewrite rev_app_distr.
  assert (H : forall (a r : shp), rbro (a ++ r) a = Some (a ++ r)).
  { induction a as [|x a IH]; intros r; [apply rbro_nil_r|]. cbn. rewrite dim_idem, IH. reflexivity. }
  rewrite H. cbn. rewrite rev_app_distr, !rev_involutive. reflexivity.
Qed.
Lemma bs_scalars l : broadcast_shapes l = Some [] <-> scalars l.
Proof.
  split.
  - intros H s Hs. pose proof (bs_fits _ _ _ H Hs) as L. cbn in L. destruct s; [reflexivity|cbn in L; lia].
  - intros H. induction l as [|s l IH]; [reflexivity|]. rewrite (H s (or_introl eq_refl)).
    unfold broadcast_shapes in *. cbn [map elementwise fold_right]. fold (elementwise (map Some l)).
    rewrite bro_unit. apply IH. intros x Hx. apply H. right. exact Hx.
Qed.
Lemma size_app a b : size (a ++ b) = size a * size b.
Proof. induction a as [|x a IH]; cbn [app size fold_right]; [fold (size b); lia|]. fold (size (a ++ b)) (size a). rewrite IH. lia. Qed.
Lemma size_pos s : ~ In 0 s -> size s <> 0.
Proof. induction s as [|x s IH]; cbn [size fold_right In]; [lia|]. fold (size s). intros H E. apply Nat.eq_mul_0 in E. destruct E as [->|E]; [tauto|]. apply IH in E; tauto. Qed.
Lemma reshape_app s e : ~ In 0 s -> reshape_last s (Some (s ++ e)) = Some (s ++ [size e]).
Proof.
  intros H. cbn. pose proof (size_pos s H) as Hp. destruct (Nat.eqb_spec (size s) 0) as [|_]; [contradiction|].
  rewrite size_app, (Nat.mul_comm (size s)), Nat.mod_mul, Nat.div_mul by exact Hp. reflexivity.
Qed.
