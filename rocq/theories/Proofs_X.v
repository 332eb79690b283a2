From Coq Require Import Reals Lra List Bool Permutation.
From Verif Require Import Model_X Spec_X.
Import ListNotations.
Open Scope R_scope.

Lemma xadd_comm a b : xadd a b = xadd b a.
Proof. destruct a, b; simpl; auto. now rewrite Rplus_comm. Qed.

Lemma xadd_assoc a b c : xadd a (xadd b c) = xadd (xadd a b) c.
Proof. destruct a, b, c; simpl; auto. now rewrite Rplus_assoc. Qed.

Lemma xadd_0_l a : xadd (Fin 0) a = a.
Proof. destruct a; simpl; auto. now rewrite Rplus_0_l. Qed.

Lemma xadd_0_r a : xadd a (Fin 0) = a.
Proof. rewrite xadd_comm; apply xadd_0_l. Qed.

Lemma xsum_app l1 l2 : xsum (l1 ++ l2) = xadd (xsum l1) (xsum l2).
Proof.
  induction l1 as [|a l IH]; simpl; [now rewrite xadd_0_l|].
  now rewrite IH, xadd_assoc.
Qed.

Lemma xsum_permutation l1 l2 : Permutation l1 l2 -> xsum l1 = xsum l2.
Proof.
  induction 1; simpl; auto.
  - now rewrite IHPermutation.
  - now rewrite !xadd_assoc, (xadd_comm y x).
  - congruence.
Qed.

Lemma xsum_concat (ls : list (list X)) : xsum (concat ls) = xsum (map xsum ls).
Proof. induction ls as [|l ls IH]; simpl; auto. now rewrite xsum_app, IH. Qed.

(** Exponential scaling of a sum by a finite amount. *)
Definition xscale (k : R) (a : X) : X :=
  match a with Fin x => Fin (k * x) | PInf => PInf | NInf => NInf | NaN => NaN end.

Lemma xscale_add k a b : 0 < k -> xscale k (xadd a b) = xadd (xscale k a) (xscale k b).
Proof. intros Hk; destruct a, b; simpl; auto. f_equal; ring. Qed.

Lemma xscale_sum k l : 0 < k -> xscale k (xsum l) = xsum (map (xscale k) l).
Proof.
  intros Hk; induction l as [|a l IH]; simpl; [f_equal; ring|].
  now rewrite xscale_add, IH.
Qed.

Lemma xexp_sub_scale a r : xexp (xsub a (Fin r)) = xscale (exp (- r)) (xexp a).
Proof.
  destruct a; simpl; auto.
  - f_equal. rewrite exp_plus. ring.
  - f_equal; ring.
Qed.

Lemma xln_scale k a : 0 < k -> xadd (xln (xscale (exp (- ln k)) a)) (Fin (ln k)) = xln a.
Proof.
  intros Hk. rewrite exp_Ropp, exp_ln by lra.
  assert (Hik : 0 < / k) by (apply Rinv_0_lt_compat; lra).
  destruct a; simpl; auto.
  destruct (Rlt_dec 0 r) as [H|H].
  - destruct (Rlt_dec 0 (/ k * r)) as [H1|H1].
    + simpl. f_equal. rewrite ln_mult, ln_Rinv by lra. ring.
    + exfalso; apply H1; apply Rmult_lt_0_compat; lra.
  - destruct (Rlt_dec 0 (/ k * r)) as [H1|H1].
    + exfalso. apply H. apply Rmult_lt_reg_l with (/ k); lra.
    + destruct (Req_EM_T r 0) as [H2|H2].
      * subst. rewrite Rmult_0_r. destruct (Req_EM_T 0 0); [auto|lra].
      * destruct (Req_EM_T (/ k * r) 0) as [H3|H3]; auto.
        apply Rmult_integral in H3. lra.
Qed.

(** The max-shift in logsumexp is transparent: it is log of the sum of exponentials. *)
Lemma logsumexp_spec l : logsumexp l = xln (xsum (map xexp l)).
Proof.
  unfold logsumexp.
  assert (H : forall r, xadd (xln (xsum (map (fun a => xexp (xsub a (Fin r))) l))) (Fin r)
                        = xln (xsum (map xexp l))).
  { intros r.
    rewrite (map_ext _ (fun a => xscale (exp (- r)) (xexp a))) by (intros; apply xexp_sub_scale).
    rewrite <- (map_map xexp (xscale (exp (- r)))).
    rewrite <- xscale_sum by apply exp_pos.
    pose proof (xln_scale (exp r) (xsum (map xexp l)) (exp_pos r)) as E.
    now rewrite ln_exp in E. }
  destruct (isfinite (xmaximum l)) eqn:E.
  - destruct (xmaximum l); try discriminate. apply H.
  - apply H.
Qed.

Lemma logsumexp_permutation l1 l2 : Permutation l1 l2 -> logsumexp l1 = logsumexp l2.
Proof.
  intros H. rewrite !logsumexp_spec. f_equal. apply xsum_permutation. now apply Permutation_map.
Qed.

(** adding -inf entries changes nothing *)
Lemma xsum_exp_repeat_ninf n : xsum (map xexp (repeat NInf n)) = Fin 0.
Proof. induction n as [|n IH]; simpl; auto. rewrite IH. simpl. f_equal; ring. Qed.

Lemma logsumexp_app_ninf l n : logsumexp (l ++ repeat NInf n) = logsumexp l.
Proof.
  rewrite !logsumexp_spec, map_app, xsum_app, xsum_exp_repeat_ninf.
  now rewrite xadd_0_r.
Qed.

Lemma xsum_exp_filter_ninf (l : list X) :
  xsum (map xexp (filter (fun a => negb (isneginf a)) l)) = xsum (map xexp l).
Proof.
  induction l as [|a l IH]; simpl; auto.
  destruct a; simpl; rewrite ?IH; auto. now rewrite xadd_0_l.
Qed.

Lemma logsumexp_filter_ninf (l : list X) :
  logsumexp (filter (fun a => negb (isneginf a)) l) = logsumexp l.
Proof. now rewrite !logsumexp_spec, xsum_exp_filter_ninf. Qed.

Lemma nan_to_neginf_range a : nan_to_neginf a = NInf \/ exists r, nan_to_neginf a = Fin r.
Proof. destruct a; simpl; eauto. Qed.

Lemma rsum_app l1 l2 : rsum (l1 ++ l2) = rsum l1 + rsum l2.
Proof. induction l1; simpl; [lra|]. rewrite IHl1; lra. Qed.

Lemma rsum_nonneg l : Forall (fun x => 0 <= x) l -> 0 <= rsum l.
Proof. induction 1; simpl; lra. Qed.

Lemma rsum_map_scale {A} (f : A -> R) k l : rsum (map (fun a => k * f a) l) = k * rsum (map f l).
Proof. induction l; simpl; [ring|]. rewrite IHl; ring. Qed.

Lemma rsum_map_plus {A} (f g : A -> R) l :
  rsum (map (fun a => f a + g a) l) = rsum (map f l) + rsum (map g l).
Proof. induction l; simpl; [ring|]. rewrite IHl; ring. Qed.

Lemma rsum_permutation l1 l2 : Permutation l1 l2 -> rsum l1 = rsum l2.
Proof. induction 1; simpl; lra. Qed.

Lemma wexp_nonneg a : 0 <= wexp a.
Proof. destruct a; simpl; try lra. left; apply exp_pos. Qed.

Lemma xexp_wexp a : fin_or_ninf a -> xexp a = Fin (wexp a).
Proof. destruct a; simpl; tauto || auto. Qed.

Lemma xsum_exp_fin l : Forall fin_or_ninf l -> xsum (map xexp l) = Fin (rsum (map wexp l)).
Proof.
  induction 1 as [|a l Ha Hl IH]; simpl; auto.
  now rewrite IH, xexp_wexp.
Qed.

Lemma rsum_wexp_nonneg l : 0 <= rsum (map wexp l).
Proof. apply rsum_nonneg. apply Forall_map, Forall_forall. intros; apply wexp_nonneg. Qed.

Lemma xln_pos r : 0 < r -> xln (Fin r) = Fin (ln r).
Proof. intros; simpl. destruct (Rlt_dec 0 r); auto; lra. Qed.

Lemma xln_zero : xln (Fin 0) = NInf.
Proof. simpl. destruct (Rlt_dec 0 0); [lra|]. destruct (Req_EM_T 0 0); auto; lra. Qed.

Lemma xln_nonneg_wexp r : 0 <= r -> fin_or_ninf (xln (Fin r)) /\ wexp (xln (Fin r)) = r.
Proof.
  intros [H|H].
  - rewrite xln_pos by auto. simpl. split; auto. now apply exp_ln.
  - subst. rewrite xln_zero. simpl. auto.
Qed.

Lemma logsumexp_fin l : Forall fin_or_ninf l -> logsumexp l = xln (Fin (rsum (map wexp l))).
Proof. intros. rewrite logsumexp_spec. f_equal. now apply xsum_exp_fin. Qed.

Lemma rsum_wexp_zero l :
  Forall fin_or_ninf l -> (rsum (map wexp l) = 0 <-> Forall (fun a => a = NInf) l).
Proof.
  induction 1 as [|a l Ha Hl IH]; simpl; [split; auto|].
  pose proof (wexp_nonneg a). pose proof (rsum_wexp_nonneg l).
  split; intros E.
  - constructor; [|apply IH; lra].
    destruct a; simpl in *; try tauto. pose proof (exp_pos r); lra.
  - inversion E; subst. simpl. apply IH in H4. lra.
Qed.

Lemma xmul_fin a b : xmul (Fin a) (Fin b) = Fin (a * b).
Proof. reflexivity. Qed.

Lemma xdiv_fin a b : b <> 0 -> xdiv (Fin a) (Fin b) = Fin (a / b).
Proof. intros; simpl. destruct (Req_EM_T b 0); auto; tauto. Qed.

(** Cauchy-Schwarz for lists: (sum w)^2 <= length * sum w^2 *)
Lemma rsum_const {A} (c : R) (l : list A) : rsum (map (fun _ => c) l) = INR (length l) * c.
Proof.
  induction l as [|a l IH]; simpl length; [simpl; ring|].
  rewrite S_INR. simpl. rewrite IH. ring.
Qed.

Lemma rsum_sq_dev w m :
  rsum (map (fun x => (x - m) * (x - m)) w)
  = rsum (map (fun x => x * x) w) - 2 * m * rsum w + INR (length w) * (m * m).
Proof.
  induction w as [|a l IH]; simpl length; [simpl; ring|].
  rewrite S_INR. simpl. rewrite IH. ring.
Qed.

Lemma rsum_sq_dev_nonneg w m : 0 <= rsum (map (fun x => (x - m) * (x - m)) w).
Proof.
  apply rsum_nonneg. apply Forall_map, Forall_forall. intros x _.
  pose proof (Rle_0_sqr (x - m)) as H. exact H.
Qed.

Lemma cauchy_schwarz_list w :
  rsum w * rsum w <= INR (length w) * rsum (map (fun x => x * x) w).
Proof.
  destruct w as [|a l]; [simpl; lra|].
  set (w := a :: l).
  assert (Hn : 0 < INR (length w)) by (apply lt_0_INR; simpl; apply Nat.lt_0_succ).
  pose proof (rsum_sq_dev_nonneg w (rsum w / INR (length w))) as H.
  rewrite rsum_sq_dev in H.
  apply Rmult_le_compat_l with (r := INR (length w)) in H; [|lra].
  rewrite Rmult_0_r in H.
  replace (INR (length w) * (rsum (map (fun x => x * x) w) -
      2 * (rsum w / INR (length w)) * rsum w +
      INR (length w) * (rsum w / INR (length w) * (rsum w / INR (length w)))))
    with (INR (length w) * rsum (map (fun x => x * x) w) - rsum w * rsum w) in H
    by (field; lra).
  lra.
Qed.
