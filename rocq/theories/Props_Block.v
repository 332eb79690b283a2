(** C64, C65: block transforms and unconstrained coordinates. *)
From Coq Require Import Reals Lra Lia List Bool.
From Verif Require Import Model_X Spec_X Proofs_X Model_Likelihood Model_Joint Model_Constraints Spec_Constraints Proofs_Constraints
  Model_Transform Spec_Transform Proofs_Transform Proofs_Block.
Import ListNotations.

(** ** C64: slices that cut the vector into consecutive pieces *)
Theorem C64_blockwise :
  forall ts xs slices, consecutive 0 xs slices -> length ts = length xs ->
  block_call ts slices (List.concat xs) = List.concat (map (fun p => t_call (fst p) (snd p)) (combine ts xs))
  /\ block_domain ts slices (List.concat xs) = forallb (fun p => t_domain (fst p) (snd p)) (combine ts xs).
Proof. intros ts xs slices H L. split; [now apply block_call_parts|now apply block_domain_parts]. Qed.
Print Assumptions C64_blockwise.

Theorem C64_inverse_and_jacobian :
  forall ts xs slices, consecutive 0 xs slices -> length ts = length xs ->
  Forall2 (fun t x => length (t_call t x) = length x) ts xs ->
  (Forall2 (fun t x => t_inverse t (t_call t x) = x) ts xs ->
   block_inverse ts slices (block_call ts slices (List.concat xs)) = List.concat xs)
  /\ block_ladj ts slices (List.concat xs) (block_call ts slices (List.concat xs))
     = xsum (map (fun p => t_ladj (fst p) (snd p) (t_call (fst p) (snd p))) (combine ts xs)).
Proof. intros ts xs slices H L S. split; [intros I; now apply block_inverse_parts|now apply block_ladj_parts]. Qed.
Print Assumptions C64_inverse_and_jacobian.

(** the image satisfies the declared codomain exactly when every block's image satisfies its own *)
Theorem C64_codomain :
  forall ts xs slices, consecutive 0 xs slices -> length ts = length xs ->
  Forall2 (fun t x => length (t_call t x) = length x) ts xs ->
  (block_codomain ts slices (block_call ts slices (List.concat xs)) = true
   <-> Forall2 (fun t x => t_codomain t (t_call t x) = true) ts xs).
Proof.
  intros ts xs slices H L S. rewrite block_codomain_parts by assumption. clear H L. induction S as [|t x ts xs E S IH]; cbn.
  - split; constructor.
  - rewrite andb_true_iff, IH. split; [intros [A B]; now constructor|]. intros B. inversion B; now subst.
Qed.
Print Assumptions C64_codomain.

Example C64_nonvacuous : exists slices,
  consecutive 0 [[Fin 30; Fin 10]; [Fin 1]] slices /\
  Forall2 (fun t x => length (t_call t x) = length x) [m1m2_to_m1q 1000; delta_to_eta] [[Fin 30; Fin 10]; [Fin 1]]
  /\ Forall2 (fun t x => t_inverse t (t_call t x) = x) [m1m2_to_m1q 1000; delta_to_eta] [[Fin 30; Fin 10]; [Fin 1]].
Proof.
  exists [Range 0 2; At 2]. split; [|split].
  - apply (consecutive_range 0 [Fin 30; Fin 10]). apply consecutive_at. constructor.
  - repeat constructor.
  - constructor; [|constructor; [|constructor]].
    + destruct (m1m2_to_m1q_from 1000 30 10 ltac:(lra)) as (q & E1 & E2). cbn [fins map] in *. rewrite E1. exact E2.
    + destruct (delta_to_eta_from 1 ltac:(lra) ltac:(lra)) as (q & E1 & E2). cbn [fins map] in *. rewrite E1. exact E2.
Qed.

(** Disjoint slices in another order are accepted, but then the forward map permutes the blocks and
    the inverse does not undo it. *)
Theorem C64_reordered_slices_refuted :
  exists ts slices x, length ts = length slices /\ slices = [At 1; At 0] /\ block_domain ts slices x = true
    /\ Forall (fun t => forall d, (0 <= d <= 1)%R -> returns_from t [d]) ts
    /\ block_inverse ts slices (block_call ts slices x) <> x.
Proof.
  pose (idt := mktransform (fun _ => true) (fun _ => true) (fun x => x) (fun x => x) (fun _ _ => Fin 0)).
  exists [delta_to_eta; idt], [At 1; At 0], [Fin 1; Fin 0]. split; [reflexivity|]. split; [reflexivity|]. split; [|split].
  - cbn. repeat match goal with |- context [Rle_dec ?a ?b] => destruct (Rle_dec a b) end; try lra; reflexivity.
  - constructor; [intros d H; apply delta_to_eta_from; lra|]. constructor; [|constructor].
    intros d H. exists [d]. split; reflexivity.
  - unfold block_call, block_inverse, take_slice, dyn_index. cbn -[xsqrt]. unfold xsqrt.
    match goal with |- context [Rlt_dec ?a ?b] => destruct (Rlt_dec a b) end; intros E; injection E as E; lra || discriminate.
Qed.
Print Assumptions C64_reordered_slices_refuted.

(** ** C65 *)
Open Scope R_scope.
(** into the constraint: ordered vectors *)
Theorem C65_ordered_vectors :
  forall a l, a <> 0 ->
  positive_increasing_vector (biject_increasing (fins (a :: l))) = true
  /\ strictly_increasing_vector (biject_increasing (fins (a :: l))) = true
  /\ positive_decreasing_vector (biject_decreasing (fins (a :: l))) = true
  /\ strictly_decreasing_vector (biject_decreasing (fins (a :: l))) = true.
Proof.
  intros a l Ha. split; [now apply biject_positive_increasing|]. split; [apply biject_increasing_strict|].
  destruct (biject_decreasing_fins a l Ha) as (q & E & _ & A & P). rewrite E. split; [|exact A].
  unfold positive_decreasing_vector. apply andb_true_iff. split.
  - apply (adjacent_mono xltb); [|exact A]. intros x y. apply xlt_le.
  - unfold positive_vector, fins. apply forallb_forall. intros x Hx. apply in_map_iff in Hx. destruct Hx as (r & <- & Hr).
    rewrite Forall_forall in P. apply xltb_fin. now apply P.
Qed.
Print Assumptions C65_ordered_vectors.

(** into the constraint: component masses *)
Theorem C65_mass_sandwich :
  forall mmin mmax a b, 0 < mmin < mmax -> a <> 0 ->
  exists m1 m2, biject_mass_sandwich (Fin mmin) (Fin mmax) (fins [a; b]) = [Fin m1; Fin m2]
    /\ mass_sandwich (Fin mmin) (Fin mmax) (Fin m1) (Fin m2) = true.
Proof.
  intros mmin mmax a b H Ha. destruct (biject_sandwich mmin mmax a b ltac:(lra) Ha) as (m1 & m2 & E & B & C).
  exists m1, m2. split; [exact E|]. apply sandwich_region. lra.
Qed.
Print Assumptions C65_mass_sandwich.

(** the (m1, q) version leaves the constraint *)
Theorem C65_mass_ratio_sandwich_refuted :
  exists mmin mmax p m1 q, 0 < mmin < mmax
    /\ biject_mass_ratio_sandwich (Fin mmin) (Fin mmax) (fins p) = [Fin m1; Fin q]
    /\ mass_ratio_mass_sandwich (Fin mmin) (Fin mmax) (Fin m1) (Fin q) = false.
Proof.
  destruct ratio_violation as (m1 & q & E & H). exists 90, 100, [1; 0], m1, q. split; [lra|]. split; [exact E|].
  apply not_true_iff_false. rewrite sandwich_ratio_equiv. cbn [xmul]. rewrite sandwich_region. lra.
Qed.
Print Assumptions C65_mass_ratio_sandwich_refuted.

(** no accepted pair with a secondary in the lower half of the mass range is ever reached *)
Theorem C65_lower_half_never_reached_refuted :
  forall mmin mmax m1 m2, 0 < mmin < mmax -> mmin <= m2 <= (mmin + mmax) / 2 -> m2 <= m1 <= mmax ->
  mass_sandwich (Fin mmin) (Fin mmax) (Fin m1) (Fin m2) = true
  /\ forall a b, a <> 0 -> biject_mass_sandwich (Fin mmin) (Fin mmax) (fins [a; b]) <> [Fin m1; Fin m2].
Proof.
  intros mmin mmax m1 m2 H H2 H1. split; [apply sandwich_region; lra|]. intros a b Ha E.
  destruct (biject_sandwich mmin mmax a b ltac:(lra) Ha) as (u & v & E' & B & C). rewrite E in E'. injection E' as -> ->. lra.
Qed.
Print Assumptions C65_lower_half_never_reached_refuted.

(** and a point and its mirror image have the same value: none of these maps is injective *)
Theorem C65_not_injective_refuted :
  forall x, biject_decreasing (map xopp x) = biject_decreasing x /\ biject_increasing (map xopp x) = biject_increasing x.
Proof. exact biject_even. Qed.
Print Assumptions C65_not_injective_refuted.

Example C65_nonvacuous : exists mmin mmax m1 m2, 0 < mmin < mmax /\ mmin <= m2 <= (mmin + mmax) / 2 /\ m2 <= m1 <= mmax.
Proof. exists 5, 100, 30, 10. lra. Qed.
