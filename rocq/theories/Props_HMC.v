(** C116: one step of the sampler _HMC is reversible with respect to the target density and leaves it invariant. *)
From Coq Require Import String List Arith Bool ZArith Reals Lra Lia FunctionalExtensionality.
From Coquelicot Require Import Coquelicot.
From Verif Require Import Model_X Spec_X Proofs_X Model_Key Model_FlowMC Spec_FlowMC Proofs_FlowMC Props_FlowMC
  Spec_Invariance Proofs_Invariance Proofs_HMC.
Import ListNotations.
Open Scope R_scope.

(** the integral used in the statements: for a non-negative continuous function that vanishes outside a box it is
    the iterated integral over the real line, and it is unchanged when coordinates are shifted by continuous
    functions of the others (used below for the positions and the momenta) *)
Lemma integral_meaning : forall n (phi : (nat -> R) -> R), box_function (seq 0 n) phi -> (forall z, 0 <= phi z) ->
  integral Nat.eq_dec (seq 0 n) phi = Finite (iterated Nat.eq_dec (seq 0 n) phi).
Proof. intros n phi. apply integral_box. apply seq_NoDup. Qed.

Section C116.
(** n dimensions; mass matrix M with Cholesky factor L and inverse Minv; jax.grad(kinetic) and jax.grad(potential);
    step size, number of leapfrog steps and log-density *)
Variables (n : nat) (M L Minv : nat -> nat -> R) (velocity gradient : (nat -> R) -> (nat -> R))
  (step_size : R) (n_leapfrog : nat) (logpdf : (nat -> R) -> X).
(** the position after a step of the kernel from x, when the normal draws are z and the uniform draw is u *)
Definition position_after (x z : nat -> R) (u : R) : nat -> R :=
  fst (fst (hmc_kernel velocity gradient step_size n_leapfrog logpdf (fun p => Fin (quadratic n Minv p))
    (fun _ => matvec n L z) (fun _ => u) (Seed 0) x (logpdf x))).
(** the mean of f after the step, over the uniform draw *)
Definition mean_after (f : (nat -> R) -> R) (x z : nat -> R) : R := RInt (fun u => f (position_after x z u)) 0 1.
(** the joint density of a position drawn from the target and of the normal draws *)
Definition joint (x z : nat -> R) : R := wexp (logpdf x) * normal_density n z.

Hypothesis mass : cholesky n M L.
Hypothesis inverse : right_inverse n M Minv.
Hypothesis velocity_is : gradient_of (quadratic n Minv) velocity.
Hypothesis gradient_continuous : forall i, (i < n)%nat -> continuous_coords (seq 0 n) (fun x => gradient x i).
Hypothesis target_finite : forall x, fin_or_ninf (logpdf x).
Hypothesis target_continuous : continuous_coords (seq 0 n) (fun x => wexp (logpdf x)).

(** starting from the target, the pair (position before, position after) and the pair (after, before) have the same
    distribution: E[g(before) f(after)] = E[f(before) g(after)] for all continuous f, g >= 0 *)
Theorem C116_reversible : forall f g, (forall x, 0 <= f x) -> (forall x, 0 <= g x) ->
  continuous_coords (seq 0 n) f -> continuous_coords (seq 0 n) g ->
  integral_xz n (fun x z => joint x z * (g x * mean_after f x z))
  = integral_xz n (fun x z => joint x z * (f x * mean_after g x z)).
Proof.
  intros f g Pf Pg Cf Cg.
  assert (odd : forall p, velocity (vneg p) = vneg (velocity p))
    by exact (even_gradient_odd (quadratic n Minv) velocity (quadratic_even n Minv) velocity_is).
  assert (Hc : 0 <= / sqrt (2 * PI) ^ n).
  { apply Rlt_le, Rinv_0_lt_compat, pow_lt, sqrt_lt_R0. assert (P := PI_RGT_0). lra. }
  assert (S := step_symmetric_normals n M L Minv velocity gradient step_size n_leapfrog logpdf mass velocity_is odd
    (quadratic_even n Minv) gradient_continuous target_finite target_continuous _ f g Hc Pf Pg Cf Cg).
  assert (E : forall f g w, let x := fun i => w (inl i) in let z := fun i : nat => w (@inr nat nat i) in
    joint x z * (g x * mean_after f x z)
    = / sqrt (2 * PI) ^ n * (rho n Minv logpdf (join (x, times n L z)) * g x
        * RInt (fun u => f (next n Minv velocity gradient step_size n_leapfrog logpdf x (times n L z) u)) 0 1)).
  { clear S Pf Pg Cf Cg f g. intros f g w x z. unfold joint, mean_after, rho, normal_density, join. cbn [fst snd].
    change (fun i => times n L z i) with (times n L z).
    rewrite (quadratic_times n M L Minv mass inverse z).
    change (fun u => f (position_after x z u)) with (fun u => f (next n Minv velocity gradient step_size n_leapfrog logpdf x (times n L z) u)).
    replace (- / 2 * total n (fun i => z i * z i)) with (- (/ 2 * total n (fun i => z i * z i))) by ring.
    change (fun i => x i) with x. unfold Rdiv. set (I := RInt _ 0 1). ring. }
  unfold integral_xz. etransitivity; [|etransitivity; [exact S|]].
  - apply integral_ext. intros w. apply (E f g w).
  - apply integral_ext. intros w. symmetry. apply (E g f w).
Qed.
(** the target is invariant: after the step the position has the distribution it had before *)
Theorem C116_invariant : forall f, (forall x, 0 <= f x) -> continuous_coords (seq 0 n) f ->
  integral_xz n (fun x z => joint x z * mean_after f x z) = integral_xz n (fun x z => joint x z * f x).
Proof.
  intros f Pf Cf. assert (H := C116_reversible f (fun _ => 1) Pf (fun _ => Rle_0_1) Cf (cob_const (seq 0 n) 1)).
  etransitivity; [|etransitivity; [exact H|]].
  - unfold integral_xz. apply integral_ext. intros w. ring.
  - unfold integral_xz. apply integral_ext. intros w. unfold mean_after. rewrite RInt_const.
    unfold scal; cbn; unfold mult; cbn. ring.
Qed.
End C116.
Print Assumptions C116_reversible.
Print Assumptions C116_invariant.
Lemma child_neq key : forall i, Child key i <> key.
Proof. induction key; intros j H; [discriminate|]. injection H as H _. now apply IHkey in H. Qed.
(** the normal draws and the uniform draw of a step come from two different keys, both different from the key given:
    the step depends on nothing else that is random *)
Theorem C116_draws : forall key, exists k1 k2, k1 <> k2 /\ k1 <> key /\ k2 <> key
  /\ forall velocity gradient step_size n_leapfrog logpdf kinetic normals normals' uniform uniform' x l,
       normals k1 = normals' k1 -> uniform k2 = uniform' k2 ->
       hmc_kernel velocity gradient step_size n_leapfrog logpdf kinetic normals uniform key x l
       = hmc_kernel velocity gradient step_size n_leapfrog logpdf kinetic normals' uniform' key x l.
Proof.
  intros key. exists (fst (split2 key)), (snd (split2 key)). unfold split2. cbn [fst snd].
  split; [|split; [|split]].
  - intros H. injection H. discriminate.
  - apply child_neq.
  - apply child_neq.
  - intros. unfold hmc_kernel, split2. now rewrite H, H0.
Qed.
Print Assumptions C116_draws.
(** a one-dimensional standard normal target with unit mass satisfies all hypotheses, and the mean of a bounded
    observable is one of the functions allowed *)
Example C116_nonvacuous :
  let one := fun i j : nat => if Nat.eqb i j then 1 else 0 in
  let velocity := fun (p : nat -> R) i => if (i =? 0)%nat then p 0%nat else 0 in
  let logpdf := fun x : nat -> R => Fin (- / 2 * (x 0%nat * x 0%nat)) in
  let f := fun x : nat -> R => exp (- Rabs (x 0%nat)) in
  integral_xz 1 (fun x z => joint 1 logpdf x z * mean_after 1 one one velocity (fun x i => x i) (1/10) 5 logpdf f x z)
  = integral_xz 1 (fun x z => joint 1 logpdf x z * f x).
Proof.
  assert (In0 : In 0%nat (seq 0 1)) by (left; reflexivity).
  assert (Ce : forall t, continuous exp t) by (intros t; apply (ex_derive_continuous (V := R_NormedModule)); auto_derive; exact I).
  intros one velocity logpdf f. apply (C116_invariant 1 one one one).
  - unfold one. split; [|split].
    + intros i j H. destruct (Nat.eqb_spec i j); [lia|reflexivity].
    + intros i _. rewrite Nat.eqb_refl. lra.
    + intros i j Hi Hj. assert (i = 0%nat) as -> by lia. assert (j = 0%nat) as -> by lia. unfold total. cbn. ring.
  - intros i j Hi Hj. unfold one. assert (i = 0%nat) as -> by lia. assert (j = 0%nat) as -> by lia. unfold total. cbn. ring.
  - intros p i. unfold quadratic, velocity, one. cbn. destruct (Nat.eqb_spec i 0) as [->|Hi].
    + auto_derive; auto. cbn. field.
    + destruct i as [|i]; [easy|]. auto_derive; auto.
  - intros i Hi. assert (i = 0%nat) as -> by lia. now apply cob_coord.
  - intros x. exact I.
  - unfold logpdf. cbn [wexp]. apply (cob_comp (seq 0 1) exp); [exact Ce|]. apply cob_mult; [apply cob_const|]. apply cob_mult; now apply cob_coord.
  - intros x. apply Rlt_le, exp_pos.
  - unfold f. apply (cob_comp (seq 0 1) exp); [exact Ce|]. apply cob_opp, cob_abs. now apply cob_coord.
Qed.
(** the integral of a tent over one coordinate is its area *)
Example integral_tent : integral Nat.eq_dec (seq 0 1) (fun z => Rmax 0 (1 - Rabs (z 0%nat))) = Finite 1.
Proof.
  assert (U : uc (seq 0 1) (fun z : nat -> R => Rmax 0 (1 - Rabs (z 0%nat)))).
  { intros eps He. exists eps. split; [exact He|]. intros z w N. specialize (N 0%nat ltac:(left; reflexivity)).
    assert (T1 := Rabs_triang_inv (z 0%nat) (w 0%nat)). assert (T2 := Rabs_triang_inv (w 0%nat) (z 0%nat)).
    rewrite (Rabs_minus_sym (w 0%nat)) in T2. apply Rabs_def1; unfold Rmax; destruct (Rle_dec 0 (1 - Rabs (z 0%nat))), (Rle_dec 0 (1 - Rabs (w 0%nat))); lra. }
  assert (Z : forall z : nat -> R, 1 < Rabs (z 0%nat) -> Rmax 0 (1 - Rabs (z 0%nat)) = 0) by (intros z Hz; apply Rmax_left; lra).
  rewrite integral_meaning.
  - f_equal. unfold iterated. cbn [seq fold_right].
    rewrite (over_RInt Nat.eq_dec (seq 0 1) 0%nat _ 1); [|exact U|lra|exact Z].
    transitivity (RInt (fun t => Rmax 0 (1 - Rabs t)) (-1) 1).
    { apply RInt_ext. intros t _. unfold set_coord. destruct (Nat.eq_dec 0 0); [reflexivity|congruence]. }
    assert (E1 : forall t, -1 < t < 0 -> 1 + t = Rmax 0 (1 - Rabs t)).
    { intros t Ht. rewrite Rabs_left by lra. rewrite Rmax_right by lra. ring. }
    assert (E2 : forall t, 0 < t < 1 -> 1 - t = Rmax 0 (1 - Rabs t)).
    { intros t Ht. rewrite Rabs_pos_eq by lra. rewrite Rmax_right by lra. ring. }
    assert (I1 : is_RInt (fun t => Rmax 0 (1 - Rabs t)) (-1) 0 (/ 2)).
    { apply (is_RInt_ext (fun t => 1 + t)).
      - intros t. rewrite Rmin_left, Rmax_right by lra. apply E1.
      - replace (/ 2) with (minus ((fun t => t + t * t / 2) 0) ((fun t => t + t * t / 2) (-1))) by (unfold minus, plus, opp; cbn; field).
        apply (is_RInt_derive (fun t => t + t * t / 2)).
        + intros t _. auto_derive; [exact I|field].
        + intros t _. apply (ex_derive_continuous (V := R_NormedModule)). auto_derive. exact I. }
    assert (I2 : is_RInt (fun t => Rmax 0 (1 - Rabs t)) 0 1 (/ 2)).
    { apply (is_RInt_ext (fun t => 1 - t)).
      - intros t. rewrite Rmin_left, Rmax_right by lra. apply E2.
      - replace (/ 2) with (minus ((fun t => t - t * t / 2) 1) ((fun t => t - t * t / 2) 0)) by (unfold minus, plus, opp; cbn; field).
        apply (is_RInt_derive (fun t => t - t * t / 2)).
        + intros t _. auto_derive; [exact I|field].
        + intros t _. apply (ex_derive_continuous (V := R_NormedModule)). auto_derive. exact I. }
    assert (I := is_RInt_Chasles _ _ _ _ _ _ I1 I2). apply (is_RInt_unique (V := R_CompleteNormedModule)) in I. rewrite I.
    unfold plus; cbn. field.
  - apply box_function_iff. split; [|exact U]. exists 1. intros z i [<-|[]]. apply Z.
  - intros z. apply Rmax_l.
Qed.
