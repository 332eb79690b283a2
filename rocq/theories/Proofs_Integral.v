From Coq Require Import Reals Lra Lia List Bool.
From Coquelicot Require Import Coquelicot.
From Verif Require Import Model_X Spec_X Proofs_X Spec_Density Proofs_Powerlaw Proofs_Mass.
Import ListNotations.
Open Scope R_scope.

(** ** iterated integrals *)
Fixpoint in_open (box : list (R * R)) (xs : list R) : Prop :=
  match box, xs with
  | [], [] => True
  | (a, b) :: box, x :: xs => a < x < b /\ in_open box xs
  | _, _ => False
  end.

Lemma ii_ext box : forall f g v, (forall xs, in_open box xs -> f xs = g xs) ->
  iterated_integral box f v -> iterated_integral box g v.
Proof.
  induction box as [|[a b] box IH]; intros f g v H.
  - simpl. intros <-. symmetry. now apply H.
  - intros (h & Hh & HI). exists h. split; auto. intros x Hx. apply (IH (fun xs => f (x :: xs))); [|now apply Hh].
    intros xs Hxs. apply H. now split.
Qed.

Lemma is_RInt_plus_R (f g : R -> R) (a b u v r : R) : is_RInt f a b u -> is_RInt g a b v -> r = u + v ->
  is_RInt (fun x => f x + g x) a b r.
Proof. intros Hf Hg ->. exact (is_RInt_plus f g a b u v Hf Hg). Qed.
Lemma is_RInt_ext_R (f g : R -> R) (a b v : R) : a <= b -> (forall x, a < x < b -> f x = g x) ->
  is_RInt f a b v -> is_RInt g a b v.
Proof.
  intros Hab H. apply is_RInt_ext. rewrite Rmin_left, Rmax_right by exact Hab. exact H.
Qed.
Lemma is_RInt_Chasles_R (f : R -> R) (a b c u v r : R) : is_RInt f a b u -> is_RInt f b c v -> r = u + v -> is_RInt f a c r.
Proof. intros Hf Hg ->. exact (is_RInt_Chasles f a b c u v Hf Hg). Qed.
Lemma is_RInt_zero_R (f : R -> R) (a b : R) : a <= b -> (forall x, a < x < b -> f x = 0) -> is_RInt f a b 0.
Proof.
  intros Hab H. apply (is_RInt_ext_R (fun _ => 0)); auto.
  - intros x Hx. symmetry. now apply H.
  - apply is_RInt_const_R. ring.
Qed.
(** a function that vanishes outside [a, b] *)
Lemma is_RInt_widen (f : R -> R) (a b a' b' v : R) : a' <= a -> a <= b -> b <= b' ->
  (forall x, x < a \/ b < x -> f x = 0) -> is_RInt f a b v -> is_RInt f a' b' v.
Proof.
  intros H1 H2 H3 Hz Hf. apply (is_RInt_Chasles_R f a' a b' 0 v); [| |ring].
  - apply is_RInt_zero_R; auto. intros x Hx. apply Hz. lra.
  - apply (is_RInt_Chasles_R f a b b' v 0); [exact Hf| |ring].
    apply is_RInt_zero_R; auto. intros x Hx. apply Hz. lra.
Qed.

Lemma ii_plus box : forall f g u v, iterated_integral box f u -> iterated_integral box g v ->
  iterated_integral box (fun xs => f xs + g xs) (u + v).
Proof.
  induction box as [|[a b] box IH]; intros f g u v.
  - simpl. now intros -> ->.
  - intros (h & Hh & HI) (k & Hk & KI). exists (fun x => h x + k x). split.
    + intros x Hx. now apply (IH (fun xs => f (x :: xs)) (fun xs => g (x :: xs))); [apply Hh|apply Hk].
    + eapply is_RInt_plus_R; eauto.
Qed.
Lemma ii_scal box : forall k f u, iterated_integral box f u -> iterated_integral box (fun xs => k * f xs) (k * u).
Proof.
  induction box as [|[a b] box IH]; intros k f u.
  - simpl. now intros ->.
  - intros (h & Hh & HI). exists (fun x => k * h x). split.
    + intros x Hx. apply (IH k (fun xs => f (x :: xs))). now apply Hh.
    + eapply is_RInt_scal_R; eauto.
Qed.
Lemma ii_value box f u v : u = v -> iterated_integral box f u -> iterated_integral box f v.
Proof. now intros ->. Qed.

Fixpoint rprod (l : list R) : R := match l with [] => 1 | x :: r => x * rprod r end.
Lemma ii_prod (box : list (R * R)) (fvs : list ((R -> R) * R)) :
  Forall2 (fun (ab : R * R) (fv : (R -> R) * R) => is_RInt (fst fv) (fst ab) (snd ab) (snd fv)) box fvs ->
  iterated_integral box (fun xs => rprod (map (fun p => fst (fst p) (snd p)) (combine fvs xs))) (rprod (map snd fvs)).
Proof.
  induction 1 as [|[a b] [f v] box fvs E H IH]; [reflexivity|]. cbn [fst snd] in E.
  exists (fun x => f x * rprod (map snd fvs)). split.
  - intros x Hx. cbn [combine map fst snd rprod]. now apply ii_scal.
  - apply (is_RInt_ext (fun x => rprod (map snd fvs) * f x)); [intros; apply Rmult_comm|].
    eapply is_RInt_scal_R; [exact E|]. cbn [map snd rprod]. apply Rmult_comm.
Qed.

(** ** powers of non-negative numbers *)
Definition pw (x s : R) : R := if Rle_dec x 0 then 0 else Rpower x s.
Lemma pw_pos x s : 0 < x -> pw x s = Rpower x s.
Proof. intros. unfold pw. destruct (Rle_dec x 0); [lra|auto]. Qed.
Lemma pw_nonpos x s : x <= 0 -> pw x s = 0.
Proof. intros. unfold pw. destruct (Rle_dec x 0); [auto|lra]. Qed.
Lemma pw_nonneg x s : 0 <= pw x s.
Proof. unfold pw. destruct (Rle_dec x 0); [lra|]. left. apply exp_pos. Qed.
Lemma pw_S x s : pw x (s + 1) = x * pw x s.
Proof.
  destruct (Rle_dec x 0) as [H|H]; [rewrite !pw_nonpos by auto; ring|].
  rewrite !pw_pos by lra. rewrite Rpower_plus, Rpower_1 by lra. ring.
Qed.
Lemma pw_cont0 s : 0 < s -> continuous (fun x => pw x s) 0.
Proof.
  intros Hs. apply filterlim_locally. intros eps. rewrite pw_nonpos by lra.
  assert (D : 0 < Rpower eps (/ s)) by apply exp_pos.
  exists (mkposreal _ D). intros y Hy. cbn in Hy.
  assert (Hy' : Rabs (y - 0) < Rpower eps (/ s)) by exact Hy.
  change (Rabs (pw y s - 0) < eps). rewrite !Rminus_0_r in *.
  rewrite Rabs_pos_eq by apply pw_nonneg.
  destruct (Rle_dec y 0) as [N|N]; [rewrite pw_nonpos by auto; apply cond_pos|].
  rewrite pw_pos by lra. rewrite Rabs_pos_eq in Hy' by lra.
  replace (pos eps) with (Rpower (Rpower eps (/ s)) s).
  - unfold Rpower at 1 2. apply exp_increasing. apply Rmult_lt_compat_l; auto. apply ln_increasing; lra.
  - rewrite Rpower_mult, Rinv_l by lra. apply Rpower_1, cond_pos.
Qed.
Lemma pw_derive (x s : R) : 1 < s -> is_derive (fun x => pw x s) x (s * pw x (s - 1)).
Proof.
  intros Hs. destruct (Rtotal_order x 0) as [H|[H|H]].
  - rewrite pw_nonpos by lra. rewrite Rmult_0_r. apply (is_derive_ext_loc (fun _ => 0)).
    + exists (mkposreal (- x) ltac:(lra)). intros y Hy. symmetry. apply pw_nonpos.
      assert (Rabs (y - x) < - x) by exact Hy. apply Rabs_def2 in H0. lra.
    + apply @is_derive_const.
  - subst x. rewrite pw_nonpos by lra. rewrite Rmult_0_r. apply is_derive_Reals.
    intros eps Heps. pose proof (pw_cont0 (s - 1) ltac:(lra)) as C.
    apply filterlim_locally with (eps := mkposreal eps Heps) in C. destruct C as [d Hd].
    exists d. intros h Hh0 Hh. rewrite Rplus_0_l, (pw_nonpos 0) by lra. rewrite !Rminus_0_r.
    replace s with ((s - 1) + 1) at 1 by ring. rewrite pw_S.
    replace (h * pw h (s - 1) / h) with (pw h (s - 1)) by (field; auto).
    assert (B : Rabs (pw h (s - 1) - pw 0 (s - 1)) < eps).
    { apply Hd. change (Rabs (h - 0) < d). now rewrite Rminus_0_r. }
    rewrite (pw_nonpos 0) in B by lra. now rewrite Rminus_0_r in B.
  - rewrite pw_pos by lra. apply (is_derive_ext_loc (fun x => Rpower x s)).
    + exists (mkposreal x H). intros y Hy. symmetry. apply pw_pos.
      assert (Rabs (y - x) < x) by exact Hy. apply Rabs_def2 in H0. lra.
    + pose proof (is_derive_Rpower x s H) as D. exact D.
Qed.
Lemma pw_cont (x s : R) : 0 < s -> continuous (fun x => pw x s) x.
Proof.
  intros Hs. destruct (Rtotal_order x 0) as [H|[H|H]].
  - apply (continuous_ext_loc _ (fun _ => 0)); [|apply continuous_const].
    exists (mkposreal (- x) ltac:(lra)). intros y Hy. symmetry. apply pw_nonpos.
    assert (Rabs (y - x) < - x) by exact Hy. apply Rabs_def2 in H0. lra.
  - subst. now apply pw_cont0.
  - apply (continuous_ext_loc _ (fun x => Rpower x s)).
    + exists (mkposreal x H). intros y Hy. symmetry. apply pw_pos.
      assert (Rabs (y - x) < x) by exact Hy. apply Rabs_def2 in H0. lra.
    + apply @ex_derive_continuous. eexists. now apply is_derive_Rpower.
Qed.

(** ** moments of the Beta density *)
Section Beta.
Variables a b : R.
Hypothesis Ha : 1 < a.
Hypothesis Hb : 1 < b.
Definition beta_weight (x : R) : R := pw x (a - 1) * pw (1 - x) (b - 1).

Lemma pw_flip_derive (x s : R) : 1 < s -> is_derive (fun x => pw (1 - x) s) x (- (s * pw (1 - x) (s - 1))).
Proof.
  intros Hs. replace (- (s * pw (1 - x) (s - 1))) with (scal (- (1)) (s * pw (1 - x) (s - 1)))
    by (unfold scal; simpl; unfold mult; simpl; ring).
  apply (is_derive_comp (fun y => pw y s) (fun x => 1 - x) x).
  - now apply pw_derive.
  - auto_derive; auto; ring.
Qed.
Lemma pw_flip_cont (x s : R) : 0 < s -> continuous (fun x => pw (1 - x) s) x.
Proof.
  intros Hs. apply (continuous_comp (fun x => 1 - x) (fun y => pw y s)); [|now apply pw_cont].
  apply @ex_derive_continuous. auto_derive. auto.
Qed.
Lemma beta_weight_cont (x : R) : continuous beta_weight x.
Proof. apply @continuous_mult; [apply pw_cont|apply pw_flip_cont]; lra. Qed.
Lemma poly_weight_cont (p : R -> R) (x : R) : (forall x : R, ex_derive p x) -> continuous (fun x => p x * beta_weight x) x.
Proof.
  intros Hp. apply @continuous_mult; [apply @ex_derive_continuous, Hp|apply beta_weight_cont].
Qed.

Definition betaB : R := RInt beta_weight 0 1.
Lemma betaB_int : is_RInt beta_weight 0 1 betaB.
Proof. apply @RInt_correct, @ex_RInt_continuous. intros; apply beta_weight_cont. Qed.
Lemma betaB_pos : 0 < betaB.
Proof.
  apply RInt_gt_0; [lra| |intros; apply beta_weight_cont].
  intros x Hx. unfold beta_weight. rewrite !pw_pos by lra. apply Rmult_lt_0_compat; apply exp_pos.
Qed.

(** integration by parts with boundary terms that vanish *)
Lemma beta_parts (p dp : R -> R) : (forall x : R, is_derive p x (dp x)) -> (forall x : R, continuous dp x) ->
  is_RInt (fun x => (x * (1 - x) * dp x + (a - (a + b) * x) * p x) * beta_weight x) 0 1 0.
Proof.
  intros Hp Hc.
  set (P := fun x => p x * (pw x a * pw (1 - x) b)).
  assert (E0 : P 1 - P 0 = 0).
  { unfold P. rewrite (pw_nonpos (1 - 1)), (pw_nonpos 0) by lra. ring. }
  assert (Hpw : forall x, pw x a = x * pw x (a - 1)) by (intros x; replace a with ((a - 1) + 1) at 1 by ring; apply pw_S).
  assert (Hpf : forall x, pw x b = x * pw x (b - 1)) by (intros x; replace b with ((b - 1) + 1) at 1 by ring; apply pw_S).
  match goal with |- is_RInt ?F _ _ _ => cut (is_RInt F 0 1 (minus (P 1) (P 0))) end.
  { intros Z. change (minus (P 1) (P 0)) with (P 1 - P 0) in Z. rewrite E0 in Z. exact Z. }
  apply (is_RInt_derive P).
  - intros x _. unfold P, beta_weight.
    evar_last.
    { apply @is_derive_mult; [apply Hp| |intros; apply Rmult_comm].
      apply @is_derive_mult; [now apply pw_derive|now apply pw_flip_derive|intros; apply Rmult_comm]. }
    unfold plus, mult; simpl. rewrite (Hpw x), (Hpf (1 - x)). ring.
  - intros x _. apply @continuous_mult; [|apply beta_weight_cont].
    apply @continuous_plus.
    + apply @continuous_mult; [apply @ex_derive_continuous; auto_derive; auto|apply Hc].
    + apply @continuous_mult; [apply @ex_derive_continuous; auto_derive; auto|].
      apply @ex_derive_continuous. eexists. apply Hp.
Qed.

Lemma beta_ex (p : R -> R) : (forall x : R, ex_derive p x) -> ex_RInt (fun x => p x * beta_weight x) 0 1.
Proof. intros Hp. apply @ex_RInt_continuous. intros; now apply poly_weight_cont. Qed.

Lemma beta_first : is_RInt (fun x => x * beta_weight x) 0 1 (a / (a + b) * betaB).
Proof.
  pose proof (beta_parts (fun _ => 1) (fun _ => 0) (fun x => @is_derive_const R_AbsRing R_NormedModule 1 x)
                (fun x => continuous_const 0 x)) as H.
  assert (H2 : is_RInt (fun x => / (a + b) * (a * beta_weight x + - (1) * ((x * (1 - x) * 0 + (a - (a + b) * x) * 1) * beta_weight x))) 0 1
                 (/ (a + b) * (a * betaB + - (1) * 0))).
  { eapply is_RInt_scal_R; [|reflexivity]. eapply is_RInt_plus_R; [| |reflexivity].
    - eapply is_RInt_scal_R; [apply betaB_int|reflexivity].
    - eapply is_RInt_scal_R; [exact H|reflexivity]. }
  apply (is_RInt_ext_R _ (fun x => x * beta_weight x)) in H2; [|lra|intros; field; lra].
  replace (a / (a + b) * betaB) with (/ (a + b) * (a * betaB + - (1) * 0)) by (field; lra). exact H2.
Qed.

Lemma beta_second : is_RInt (fun x => x * x * beta_weight x) 0 1 ((a + 1) / (a + b + 1) * (a / (a + b)) * betaB).
Proof.
  pose proof (beta_parts (fun x => x) (fun _ => 1) (fun x => @is_derive_id R_AbsRing x) (fun x => continuous_const 1 x)) as H.
  assert (H2 : is_RInt (fun x => / (a + b + 1) * ((a + 1) * (x * beta_weight x)
             + - (1) * ((x * (1 - x) * 1 + (a - (a + b) * x) * x) * beta_weight x))) 0 1
                 (/ (a + b + 1) * ((a + 1) * (a / (a + b) * betaB) + - (1) * 0))).
  { eapply is_RInt_scal_R; [|reflexivity]. eapply is_RInt_plus_R; [| |reflexivity].
    - eapply is_RInt_scal_R; [apply beta_first|reflexivity].
    - eapply is_RInt_scal_R; [exact H|reflexivity]. }
  apply (is_RInt_ext_R _ (fun x => x * x * beta_weight x)) in H2; [|lra|intros; field; lra].
  replace ((a + 1) / (a + b + 1) * (a / (a + b)) * betaB)
    with (/ (a + b + 1) * ((a + 1) * (a / (a + b) * betaB) + - (1) * 0)) by (field; lra). exact H2.
Qed.

Lemma beta_variance : let m := a / (a + b) in
  is_RInt (fun x => (x - m)² * beta_weight x) 0 1 (a * b / ((a + b)² * (a + b + 1)) * betaB).
Proof.
  intros m.
  assert (H2 : is_RInt (fun x => x * x * beta_weight x + (-2 * m * (x * beta_weight x) + m * m * beta_weight x)) 0 1
     ((a + 1) / (a + b + 1) * (a / (a + b)) * betaB + (-2 * m * (a / (a + b) * betaB) + m * m * betaB))).
  { eapply is_RInt_plus_R; [apply beta_second| |reflexivity]. eapply is_RInt_plus_R; [| |reflexivity].
    - eapply is_RInt_scal_R; [apply beta_first|reflexivity].
    - eapply is_RInt_scal_R; [apply betaB_int|reflexivity]. }
  apply (is_RInt_ext_R _ (fun x => (x - m)² * beta_weight x)) in H2; [|lra|intros; unfold Rsqr; ring].
  match type of H2 with is_RInt _ _ _ ?v =>
    replace (a * b / ((a + b)² * (a + b + 1)) * betaB) with v by (unfold m, Rsqr; field; lra) end.
  exact H2.
Qed.
End Beta.
