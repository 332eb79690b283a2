(** Property C41: the conditional Dirichlet priors. *)
From Coq Require Import Reals Lra Lia ZArith List Bool.
From Coquelicot Require Import Coquelicot.
From Verif Require Import Model_X Spec_X Spec_Density Model_Dirichlet Proofs_Dirichlet.
Import ListNotations.
Open Scope R_scope.

(** every non-final element, given the earlier values [cs], is normalised over what is left *)
Theorem C41_element_normalised : forall order n kw cs, (order < n - 1)%nat ->
  (forall i, (i < order)%nat -> kw i = Some (cs i)) -> rsum (map cs (seq 0 order)) < 1 ->
  exists e, dirichlet_element (Z.of_nat order) (Z.of_nat n) kw = Some e
    /\ integrates_to (element_log_prob e) 0 (1 - rsum (map cs (seq 0 order))) 1.
Proof.
  intros order n kw cs Ho Hk Hs. eexists. split; [apply (element_some order n kw cs Ho Hk)|]. now apply element_normalised.
Qed.
Print Assumptions C41_element_normalised.
(** sampling inverts the distribution function: a fraction 1 - u of the probability lies below the
    value drawn with the uniform number u *)
Theorem C41_sampling_inverts : forall order n kw cs u, (order < n - 1)%nat ->
  (forall i, (i < order)%nat -> kw i = Some (cs i)) -> rsum (map cs (seq 0 order)) < 1 -> 0 <= u <= 1 ->
  exists e x, dirichlet_element (Z.of_nat order) (Z.of_nat n) kw = Some e
    /\ element_sample e u = Fin x /\ 0 <= x <= 1 - rsum (map cs (seq 0 order))
    /\ integrates_to (element_log_prob e) 0 x (1 - u).
Proof.
  intros order n kw cs u Ho Hk Hs Hu.
  destruct (sample_inverts order n (rsum (map cs (seq 0 order))) u Ho Hs Hu) as (x & A & B & C).
  eexists. exists x. split; [apply (element_some order n kw cs Ho Hk)|]. split; [exact A|]. split; [exact B|exact C].
Qed.
Print Assumptions C41_sampling_inverts.
Theorem C41_draws_on_simplex : forall n us, (2 <= n)%nat -> length us = n -> List.Forall (fun u => 0 <= u <= 1) us ->
  exists xs, draw_all (Z.of_nat n) [] us = Some xs /\ length xs = n /\ List.Forall (fun x => 0 <= x) xs /\ rsum xs = 1.
Proof.
  intros n us Hn HL Hu. apply draw_ok; auto.
  - intros ->. simpl in HL. lia.
  - simpl. lra.
Qed.
Print Assumptions C41_draws_on_simplex.
(** the joint density is (N-1)! at every point of the simplex whose last element is positive *)
Theorem C41_joint_flat : forall xs last, xs <> [] -> List.Forall (fun x => 0 <= x) xs -> 0 < last -> rsum xs + last = 1 ->
  joint_log_prob (Z.of_nat (length xs + 1)) [] (xs ++ [last]) = Some (Fin (ln (INR (fact (length xs))))).
Proof.
  intros xs last Hne Hx Hl Hsum. rewrite joint_ok; auto.
  - simpl rsum. rewrite Rminus_0_r, ln_1. f_equal. f_equal. ring.
  - destruct xs; [congruence|]. simpl. lia.
  - simpl. lra.
Qed.
Print Assumptions C41_joint_flat.
Theorem C41_errors : forall order n kw,
  ((order < 0)%Z -> dirichlet_element order n kw = None)
  /\ ((n < 2)%Z -> dirichlet_element order n kw = None)
  /\ (forall i, (i < Z.to_nat order)%nat -> kw i = None -> dirichlet_element order n kw = None).
Proof.
  intros order n kw. unfold dirichlet_element. split; [|split].
  - intros H. destruct (Z.ltb_spec order 0); [reflexivity|lia].
  - intros H. destruct (order <? 0)%Z; [reflexivity|]. destruct (Z.ltb_spec n 2); [reflexivity|lia].
  - intros i Hi H. destruct (order <? 0)%Z; [reflexivity|]. destruct (n <? 2)%Z; [reflexivity|].
    rewrite (collect_none kw _ 0 i) by (auto; lia). reflexivity.
Qed.
Print Assumptions C41_errors.
(** an order beyond the last element is not rejected; its density is not a number *)
Theorem C41_order_unchecked_refuted : forall order n kw cs v, (2 <= n)%nat -> (n <= order)%nat ->
  (forall i, (i < order)%nat -> kw i = Some (cs i)) ->
  exists e, dirichlet_element (Z.of_nat order) (Z.of_nat n) kw = Some e /\ element_log_prob e v = NaN.
Proof. exact order_unchecked. Qed.
Print Assumptions C41_order_unchecked_refuted.
(** at a vertex of the simplex, which can be drawn with u = 0, the joint density is not a number *)
Theorem C41_vertex_refuted : draw_all 3 [] [0; 0; 0] = Some [1; 0; 0] /\ joint_log_prob 3 [] [1; 0; 0] = Some NaN.
Proof. split; [exact vertex_drawn|exact vertex_nan]. Qed.
Print Assumptions C41_vertex_refuted.
Example C41_nonvacuous : [1/2; 1/4] <> [] /\ List.Forall (fun x => 0 <= x) [1/2; 1/4] /\ 0 < 1/4 /\ rsum [1/2; 1/4] + 1/4 = 1.
Proof. split; [discriminate|]. split; [repeat (constructor; [lra|]); constructor|]. simpl. lra. Qed.
