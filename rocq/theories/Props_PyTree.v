(** C146: distributions, constraints and transforms survive being taken apart and put together by jax.  [tree_map f v]
    is what jit and vmap do to an object v; [look p v] is what can be read of v along the path p. *)
From Coq Require Import String List ZArith Bool.
From Verif Require Import Model_PyTree Spec_PyTree Proofs_PyTree.
Import ListNotations.
Open Scope string_scope.

(** the round trip loses nothing when no BlockTransform is involved *)
Theorem C146_roundtrip own v : built v -> no_block v ->
  exists v', tree_map (fun x => x) v = Some v' /\ forall p, look own p v' = look own p v.
Proof.
  intros B N. destruct (tree_map_agrees own (fun x => x) v B) as (v' & E & A). exists v'. split; [exact E|].
  intros p. rewrite A by auto. destruct (look own p v) as [s|]; cbn; [|auto]. f_equal. destruct (static_path p v); [auto|]. now destruct s.
Qed.
Print Assumptions C146_roundtrip.

(** jax's function reaches exactly the leaves that are not static, in every object including BlockTransforms *)
Theorem C146_leaves own f v : built v ->
  exists v', tree_map f v = Some v' /\ forall p, avoids_domain p \/ no_block v ->
    look own p v' = option_map (fun s => if static_path p v then s else see_map f s) (look own p v).
Proof. intros B. exact (tree_map_agrees own f v B). Qed.
Print Assumptions C146_leaves.

(** an interval from 1 to 2, a mass model on it, a joint distribution of two such *)
Definition number (n : Z) : val := Leaf (Array n).
Definition interval (a b : Z) : val := Obj "_Interval" [("lower_bound", number a); ("upper_bound", number b)].
Definition shapes : list (string * val) := [("_batch_shape", Seq []); ("_event_shape", Seq [])].
Definition broken_powerlaw : val :=
  Obj "BrokenPowerlaw" (([("_support", interval 1 2); ("alpha1", number 3); ("alpha2", number 4); ("mbreak", number 5); ("mmax", number 2); ("mmin", number 1)] ++ shapes)%list).
Definition joint : val :=
  Obj "JointDistribution" (([("marginal_distributions", Seq [broken_powerlaw; broken_powerlaw]); ("shaped_values", Seq [Leaf (PyInt 0); Leaf (PyInt 1)]);
    ("_support", Obj "_AllConstraint" [("constraints", Seq [interval 1 2; interval 1 2]); ("event_slices", Seq [Leaf (PyInt 0); Leaf (PyInt 1)])])] ++ shapes)%list).
(** what jit does to the leaves *)
Definition trace (x : leaf) : leaf := match x with PyInt n => Array n | Array n => Array n end.

Ltac build := repeat match goal with
  | |- _ /\ _ => split
  | |- True => exact I
  | |- exists _, _ => eexists; split; [vm_compute; reflexivity|vm_compute; reflexivity]
  | |- _ <> _ => discriminate
  end.
Example joint_built : built joint /\ no_block joint.
Proof. unfold joint, broken_powerlaw, interval, number, shapes; cbn [app built no_block fold_right snd]; build. Qed.
Example C146_roundtrip_nonvacuous : exists v', tree_map (fun x => x) joint = Some v' /\ forall p, look (fun _ _ => None) p v' = look (fun _ _ => None) p joint.
Proof. apply C146_roundtrip; apply joint_built. Qed.

(** the event slices stay Python ints under any function on the leaves *)
Theorem C146_slices own f v n attrs a : built v -> v = Obj n attrs ->
  (n, a) = ("_AllConstraint", "event_slices") \/ (n, a) = ("BlockTransform", "event_slices")
  \/ (n, a) = ("JointDistribution", "shaped_values") \/ (n, a) = ("LazyJointDistribution", "shaped_values") ->
  exists v', tree_map f v = Some v' /\ forall p, avoids_domain p -> look own (Attr a :: p) v' = look own (Attr a :: p) v.
Proof.
  intros B -> H. destruct (tree_map_agrees own f _ B) as (v' & E & A). exists v'. split; [exact E|].
  intros p Hp. rewrite A.
  - replace (static_path (Attr a :: p) (Obj n attrs)) with true; [apply option_map_id|].
    cbn [static_path]. destruct (assoc a attrs); [|auto].
    destruct H as [H|[H|[H|H]]]; injection H as Hn Ha; subst n a; vm_compute; reflexivity.
  - left. destruct Hp as [P1 P2]. split; intros [K|K]; try tauto;
    destruct H as [H|[H|[H|H]]]; injection H as Hn Ha; subst n a; discriminate.
Qed.
Print Assumptions C146_slices.
Example C146_slices_nonvacuous : exists v', tree_map trace joint = Some v' /\
  look (fun _ _ => None) [Attr "shaped_values"; Item 0] v' = Some (SLeaf (PyInt 0)).
Proof.
  destruct (C146_slices (fun _ _ => None) trace joint _ _ "shaped_values" (proj1 joint_built) eq_refl) as (v' & E & L); [tauto|].
  exists v'. split; [exact E|]. rewrite (L [Item 0]); [reflexivity|]. split; intros [K|[]]; discriminate.
Qed.

(** every attribute that is not one of the static ones, parameters and supports alike, is mapped like a value of its own *)
Theorem C146_reached own f n attrs a w : built (Obj n attrs) -> assoc a attrs = Some w -> static_attribute n a = false ->
  exists v' w', tree_map f (Obj n attrs) = Some v' /\ tree_map f w = Some w'
    /\ forall p, avoids_domain p -> look own (Attr a :: p) v' = look own p w'.
Proof.
  intros B Ea S. destruct (tree_map_agrees own f _ B) as (v' & E & A).
  pose proof B as B'. cbn [built] in B'. destruct B' as ((c & Hc & Hi) & F).
  assert (Bw : built w).
  { apply (all_Forall (fun kv => built (snd kv))) in F. rewrite Forall_forall in F. exact (F _ (assoc_in _ _ _ Ea)). }
  destruct (tree_map_agrees own f w Bw) as (w' & E' & A').
  exists v', w'. split; [exact E|]. split; [exact E'|]. intros p [P1 P2].
  assert (Ia : In a (init c)) by (rewrite <- Hi; exact (assoc_fst _ _ _ Ea)).
  pose proof (static_facts n c a Hc Ia) as T. rewrite S in T. destruct T as (D1 & D2 & M).
  rewrite A, A' by (left; split; [|]; try (intros [K|K]; [congruence|auto]); auto).
  unfold look. cbn [read static_path]. rewrite Ea, Hc. fold (memb a (aux c)). rewrite M. reflexivity.
Qed.
Print Assumptions C146_reached.
Example C146_reached_nonvacuous : exists v', tree_map trace joint = Some v' /\
  look (fun _ _ => None) [Attr "marginal_distributions"; Item 1; Attr "mmin"] v' = Some (SLeaf (Array 1)).
Proof.
  destruct (C146_reached (fun _ _ => None) trace _ _ "marginal_distributions" _ (proj1 joint_built) eq_refl eq_refl) as (v' & w' & E & E' & L).
  exists v'. split; [exact E|]. rewrite L; [vm_compute in E'; injection E' as <-; reflexivity|]. split; intros [K|[K|[]]]; discriminate.
Qed.

(** and the static ones come back as they were, but for the domains of a BlockTransform *)
Theorem C146_static own f n attrs a : built (Obj n attrs) -> static_attribute n a = true -> a <> "domain" -> a <> "codomain" ->
  exists v', tree_map f (Obj n attrs) = Some v'
    /\ forall p, avoids_domain p -> look own (Attr a :: p) v' = look own (Attr a :: p) (Obj n attrs).
Proof.
  intros B S D1 D2. destruct (tree_map_agrees own f _ B) as (v' & E & A). exists v'. split; [exact E|]. intros p [P1 P2].
  cbn [built] in B. destruct B as ((c & Hc & Hi) & _).
  rewrite A by (left; split; (intros [K|K]; [congruence|auto])).
  replace (static_path (Attr a :: p) (Obj n attrs)) with true; [apply option_map_id|].
  cbn [static_path]. destruct (assoc a attrs) as [w|] eqn:Ea; [|auto]. rewrite Hc. fold (memb a (aux c)).
  assert (Ia : In a (init c)) by (rewrite <- Hi; exact (assoc_fst _ _ _ Ea)).
  pose proof (static_facts n c a Hc Ia) as T. rewrite S in T. destruct T as [T|[T|T]]; [congruence|congruence|]. now rewrite T.
Qed.
Print Assumptions C146_static.
Example C146_static_nonvacuous : exists v', tree_map trace joint = Some v' /\
  look (fun _ _ => None) [Attr "shaped_values"; Item 1] v' = Some (SLeaf (PyInt 1)).
Proof.
  destruct (C146_static (fun _ _ => None) trace _ _ "shaped_values" (proj1 joint_built) eq_refl ltac:(discriminate) ltac:(discriminate)) as (v' & E & L).
  exists v'. split; [exact E|]. rewrite (L [Item 1]); [reflexivity|]. split; intros [K|[]]; discriminate.
Qed.

(** a support bound that equals a parameter still does afterwards, if both are handed to jax *)
Theorem C146_support own f v b q : built v -> no_block v ->
  static_path q v = false -> static_path [Attr b] v = false -> look own q v = look own [Attr b] v ->
  exists v', tree_map f v = Some v' /\ look own q v' = look own [Attr b] v'.
Proof.
  intros B N S1 S2 E. destruct (tree_map_agrees own f v B) as (v' & T & A). exists v'. split; [exact T|].
  rewrite !A by auto. now rewrite S1, S2, E.
Qed.
Print Assumptions C146_support.
Example C146_support_nonvacuous : exists v', tree_map (fun _ => Array 7) broken_powerlaw = Some v' /\
  look (fun _ _ => None) [Attr "_support"; Attr "lower_bound"] v' = look (fun _ _ => None) [Attr "mmin"] v'.
Proof.
  apply C146_support; try reflexivity; unfold broken_powerlaw, interval, number, shapes; cbn [app built no_block fold_right snd]; build.
Qed.

(** not for DoublyTruncatedPowerLaw, whose support is static: under vmap it keeps the old bounds *)
Definition truncated_powerlaw : val :=
  Obj "DoublyTruncatedPowerLaw" (([("_support", interval 1 2); ("alpha", number 3); ("low", number 1); ("high", number 2)] ++ shapes)%list).
Theorem C146_powerlaw_refuted : exists v f v', built v /\ no_block v /\ tree_map f v = Some v' /\
  forall own, look own [Attr "_support"; Attr "lower_bound"] v = look own [Attr "low"] v
  /\ look own [Attr "_support"; Attr "lower_bound"] v' <> look own [Attr "low"] v'.
Proof.
  exists truncated_powerlaw, (fun _ => Array 7). eexists. split; [|split; [|split; [vm_compute; reflexivity|]]].
  1,2: unfold truncated_powerlaw, interval, number, shapes; cbn [app built no_block fold_right snd]; build.
  intros own. split; [reflexivity|discriminate].
Qed.
Print Assumptions C146_powerlaw_refuted.

(** nor are the slices of a _LazyConstraint safe: they are handed to jax, and a tracer is not an int *)
Definition lazy_constraint : val :=
  Obj "_LazyConstraint" [("marginal_distributions", Seq [broken_powerlaw]); ("dependencies", Dict []); ("event_slices", Seq [Leaf (PyInt 0)])].
Theorem C146_lazy_refuted : exists v v', built v /\ no_block v /\ tree_map trace v = Some v' /\
  forall own, look own [Attr "event_slices"; Item 0] v = Some (SLeaf (PyInt 0))
  /\ look own [Attr "event_slices"; Item 0] v' = Some (SLeaf (Array 0)).
Proof.
  exists lazy_constraint. eexists. split; [|split; [|split; [vm_compute; reflexivity|]]].
  1,2: unfold lazy_constraint, broken_powerlaw, interval, number, shapes; cbn [app built no_block fold_right snd]; build.
  intros own. split; reflexivity.
Qed.
Print Assumptions C146_lazy_refuted.

(** a BlockTransform comes back with the domain and codomain of the base class, whatever it had *)
Theorem C146_block_lost own f v attrs v' a : built v -> v = Obj "BlockTransform" attrs ->
  a = "domain" \/ a = "codomain" -> tree_map f v = Some v' -> look own [Attr a] v' = Some (SObj "_Real").
Proof.
  intros B -> Ha E. cbn [built] in B. destruct B as ((c & Hc & Hi) & _).
  cbn [tree_map] in E. rewrite Hc in E. vm_compute in Hc. injection Hc as <-.
  destruct (getattrs _ _) as [ch|] in E; [|discriminate]. destruct (getattrs _ _) as [st|] in E; [|discriminate].
  destruct (traverse ch) as [ys|]; [|discriminate]. cbn in E. injection E as <-.
  destruct ys as [|y ys], st as [|s st]; destruct Ha; subst a; reflexivity.
Qed.
Print Assumptions C146_block_lost.

Definition block : val :=
  Obj "BlockTransform" [("event_slices", Seq [Leaf (PyInt 0)]); ("transforms", Seq [Obj "DeltaToSymmetricMassRatio" []]);
    ("domain", Obj "_AllConstraint" [("constraints", Seq [interval 0 1]); ("event_slices", Seq [Leaf (PyInt 0)])]);
    ("codomain", Obj "_AllConstraint" [("constraints", Seq [interval 0 1]); ("event_slices", Seq [Leaf (PyInt 0)])])].
Example block_built : built block.
Proof. unfold block, interval, number; cbn [app built no_block fold_right snd]; build. Qed.
Example C146_block_lost_nonvacuous : exists v', tree_map (fun x => x) block = Some v'
  /\ look (fun _ _ => None) [Attr "codomain"] v' = Some (SObj "_Real").
Proof. eexists. split; [vm_compute; reflexivity|]. reflexivity. Qed.
Example C146_leaves_nonvacuous : exists v', tree_map trace block = Some v' /\ look (fun _ _ => None) [Attr "transforms"; Item 0] v' = Some (SObj "DeltaToSymmetricMassRatio").
Proof.
  destruct (C146_leaves (fun _ _ => None) trace block block_built) as (v' & E & L). exists v'. split; [exact E|].
  rewrite L; [reflexivity|]. left. split; intros [K|[K|[]]]; discriminate.
Qed.

(** so the round trip is not the identity for all of them *)
Theorem C146_refuted : ~ forall own v, built v ->
  exists v', tree_map (fun x => x) v = Some v' /\ forall p, look own p v' = look own p v.
Proof.
  intros H. destruct (H (fun _ _ => None) block block_built) as (v' & E & L).
  specialize (L [Attr "codomain"]). rewrite (C146_block_lost _ (fun x => x) block _ v' "codomain" block_built eq_refl) in L; [discriminate|auto|exact E].
Qed.
Print Assumptions C146_refuted.
