(** Properties C43, C44, C45, C60: constraints. *)
From Coq Require Import Reals Lra Lia List Bool.
From Verif Require Import Model_X Model_Joint Model_Constraints Spec_Constraints Proofs_X Proofs_Constraints.
Import ListNotations.
Open Scope R_scope.

(** C43 *)
Theorem C43_vector_constraints_are_pairwise :
  forall x,
  (increasing_vector x = true <-> pairwise xleb x)
  /\ (strictly_increasing_vector x = true <-> pairwise xltb x)
  /\ (decreasing_vector x = true <-> pairwise (fun a b => xleb b a) x)
  /\ (strictly_decreasing_vector x = true <-> pairwise (fun a b => xltb b a) x)
  /\ (positive_increasing_vector x = true
      <-> pairwise xleb x /\ forall a, In a x -> xltb (Fin 0) a = true)
  /\ (positive_decreasing_vector x = true
      <-> pairwise (fun a b => xleb b a) x /\ forall a, In a x -> xltb (Fin 0) a = true).
Proof.
  intros x. split; [apply increasing_iff|]. split; [apply strictly_increasing_iff|].
  split; [apply decreasing_iff|]. split; [apply strictly_decreasing_iff|].
  unfold positive_increasing_vector, positive_decreasing_vector.
  rewrite !andb_true_iff, increasing_iff, decreasing_iff, positive_iff. tauto.
Qed.
Print Assumptions C43_vector_constraints_are_pairwise.

Theorem C43_feasible_values_accepted :
  forall n,
  increasing_vector (ones n) = true /\ decreasing_vector (ones n) = true
  /\ strictly_increasing_vector (arange_up n) = true /\ strictly_decreasing_vector (arange_down n) = true
  /\ positive_increasing_vector (ones n) = true /\ positive_decreasing_vector (ones n) = true.
Proof. exact feasible_vectors. Qed.
Print Assumptions C43_feasible_values_accepted.
Example C43_nonvacuous :
  increasing_vector [Fin 1; Fin 1; Fin 2] = true /\ strictly_increasing_vector [Fin 1; Fin 1; Fin 2] = false.
Proof.
  cbn. destruct (Rle_dec 1 1), (Rle_dec 1 2), (Rlt_dec 1 1), (Rlt_dec 1 2); try lra; auto.
Qed.

(** C44 *)
Theorem C44_regions :
  forall mmin mmax m1 m2 q,
  (mass_sandwich (Fin mmin) (Fin mmax) (Fin m1) (Fin m2) = true
   <-> 0 < mmin /\ mmin <= m2 <= m1 /\ m1 <= mmax)
  /\ (mass_ratio_mass_sandwich (Fin mmin) (Fin mmax) (Fin m1) (Fin q) = true
      <-> 0 < mmin /\ mmin <= m1 <= mmax /\ mmin / m1 <= q <= 1).
Proof. intros. split; [apply sandwich_region|apply ratio_sandwich_region]. Qed.
Print Assumptions C44_regions.

Theorem C44_ratio_form_same_region :
  forall mmin mmax m1 q,
  mass_ratio_mass_sandwich (Fin mmin) (Fin mmax) (Fin m1) (Fin q)
  = mass_sandwich (Fin mmin) (Fin mmax) (Fin m1) (Fin (q * m1)).
Proof.
  intros. rewrite sandwich_ratio_equiv, xmul_fin. now rewrite Rmult_comm.
Qed.
Print Assumptions C44_ratio_form_same_region.

Theorem C44_nan_rejected :
  forall mmin mmax m1 m2,
  m1 = NaN \/ m2 = NaN \/ mmin = NaN \/ mmax = NaN ->
  mass_sandwich mmin mmax m1 m2 = false /\ mass_ratio_mass_sandwich mmin mmax m1 m2 = false.
Proof.
  intros mmin mmax m1 m2 H. unfold mass_ratio_mass_sandwich.
  assert (G : forall a b c d, (a = NaN \/ b = NaN \/ c = NaN \/ d = NaN) -> mass_sandwich a b c d = false).
  { intros a b c d Hn. destruct a, b, c, d; simpl; unfold mass_sandwich; simpl;
      rewrite ?andb_false_r; auto; exfalso; intuition discriminate. }
  split; [apply G; tauto|]. apply (G mmin mmax m1 (xmul m1 m2)).
  destruct H as [->|[->|[->| ->]]]; auto; destruct m1; auto.
Qed.
Print Assumptions C44_nan_rejected.

Theorem C44_feasible_values_accepted :
  forall mmin mmax, 0 < mmin <= mmax ->
  (let '(m1, m2) := mass_sandwich_feasible (Fin mmin) (Fin mmax) in
   mass_sandwich (Fin mmin) (Fin mmax) m1 m2 = true) /\
  (let '(m1, q) := mass_ratio_feasible (Fin mmin) (Fin mmax) in
   mass_ratio_mass_sandwich (Fin mmin) (Fin mmax) m1 q = true).
Proof. exact sandwich_feasible. Qed.
Print Assumptions C44_feasible_values_accepted.
Example C44_nonvacuous : mass_sandwich (Fin 5) (Fin 100) (Fin 30) (Fin 20) = true /\ 0 < 5 <= 100.
Proof. split; [apply sandwich_region|]; lra. Qed.

(** C45: true for constraints of the same layout ... *)
Theorem C45_equal_constraints_agree_partial :
  forall B T (basic_check : B -> list X -> bool) basic_eq (codomain_check : T -> list X -> bool) t_inv t_eq,
  (forall a b, basic_eq a b = true -> forall x, basic_check a x = basic_check b x) ->
  (forall a b, t_eq a b = true ->
     forall x, codomain_check a x = codomain_check b x /\ t_inv a x = t_inv b x) ->
  forall c1 c2, same_layout c1 c2 -> con_eq basic_eq t_eq c1 c2 = true ->
  forall x, check basic_check codomain_check t_inv c1 x = check basic_check codomain_check t_inv c2 x.
Proof. intros. eapply con_eq_sound; eauto. Qed.
Print Assumptions C45_equal_constraints_agree_partial.

(** ... and false otherwise: conjunctions on different slices, or where one has further parts,
    and alternatives where one has further parts, compare equal. *)
Definition thr_check (r : R) (x : list X) : bool := forallb (fun a => xleb (Fin r) a) x.
Definition thr_eq (a b : R) : bool := if Req_EM_T a b then true else false.
Local Notation chk := (check thr_check (fun _ : unit => fun _ => true) (fun _ x => x)).
Local Notation ceq := (con_eq thr_eq (fun _ _ : unit => true)).
Lemma thr_eq_refl a : thr_eq a a = true.
Proof. unfold thr_eq. destruct (Req_EM_T a a); congruence. Qed.

Theorem C45_slices_ignored_refuted :
  exists c1 c2 x, ceq c1 c2 = true /\ chk c1 x = true /\ chk c2 x = false.
Proof.
  exists (All [Basic 0] [At 0]), (All [Basic 0] [At 1]), [Fin 1; Fin (-1)].
  split; [cbn; now rewrite thr_eq_refl|]. cbn.
  destruct (Rle_dec 0 1), (Rle_dec 0 (-1)); try lra; auto.
Qed.
Print Assumptions C45_slices_ignored_refuted.
Theorem C45_extra_parts_ignored_refuted :
  exists c1 c2 x, ceq c1 c2 = true /\ chk c1 x = true /\ chk c2 x = false.
Proof.
  exists (All [Basic 0] [At 0]), (All [Basic 0; Basic 0] [At 0; At 1]), [Fin 1; Fin (-1)].
  split; [cbn; now rewrite thr_eq_refl|]. cbn.
  destruct (Rle_dec 0 1), (Rle_dec 0 (-1)); try lra; auto.
Qed.
Print Assumptions C45_extra_parts_ignored_refuted.
Theorem C45_extra_alternatives_ignored_refuted :
  exists c1 c2 x, ceq c1 c2 = true /\ chk c1 x = false /\ chk c2 x = true.
Proof.
  exists (Any [Basic 5]), (Any [Basic 5; Basic 0]), [Fin 1].
  split; [cbn; now rewrite thr_eq_refl|]. cbn.
  destruct (Rle_dec 5 1), (Rle_dec 0 1); try lra; auto.
Qed.
Print Assumptions C45_extra_alternatives_ignored_refuted.
Example C45_nonvacuous :
  let c := All [Basic 0; Any [Basic 1; Basic 2]] [At 0; At 1] in
  same_layout c c /\ ceq c c = true.
Proof.
  split; [repeat constructor|]. cbn. now rewrite !thr_eq_refl.
Qed.

(** C60: feasible_like of every composite of well-behaved parts is accepted by the composite. *)
Theorem C60_feasible_like_accepted :
  forall B T (basic_check : B -> list X -> bool) basic_feasible (codomain_check : T -> list X -> bool)
         t_inv t_fwd bsize domain_check,
  (forall b x, length x = bsize b ->
     length (basic_feasible b x) = bsize b /\ basic_check b (basic_feasible b x) = true) ->
  (forall t x, domain_check t x = true ->
     length (t_fwd t x) = length x /\ codomain_check t (t_fwd t x) = true /\ t_inv t (t_fwd t x) = x) ->
  forall c n x,
  constrains bsize domain_check t_fwd (check basic_check codomain_check t_inv) c n -> length x = n ->
  length (feasible basic_feasible t_fwd c x) = n
  /\ check basic_check codomain_check t_inv c (feasible basic_feasible t_fwd c x) = true.
Proof. intros. eapply feasible_accepted; eauto. Qed.
Print Assumptions C60_feasible_like_accepted.
Example C60_nonvacuous :
  constrains (fun _ : R => 1%nat) (fun _ : unit => fun _ => true) (fun _ x => x) chk
    (All [Basic 0; Any [Transformed (Basic 1) [tt]; Basic 2]] (laid_out 0 [None; Some 1%nat])) 2.
Proof.
  apply (CS_all _ _ _ _ _ [None; Some 1%nat]). constructor; [apply (CS_basic (fun _ : R => 1%nat))|]. constructor; [|constructor].
  apply CS_any; [discriminate|]. constructor; [|constructor; [|constructor]].
  - apply CS_tr; [apply (CS_basic (fun _ : R => 1%nat))|]. simpl. auto.
  - apply (CS_basic (fun _ : R => 1%nat)).
Qed.
