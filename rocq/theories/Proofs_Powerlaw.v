From Coq Require Import Reals Lra ZArith.
From Coquelicot Require Import Coquelicot.
From Verif Require Import Model_X Spec_X Proofs_X Model_Powerlaw Spec_Density Proofs_Transform.
Open Scope R_scope.

(** ** one antiderivative for both branches *)
Definition antider (alpha x : R) : R :=
  if Req_EM_T alpha (-1) then ln x else Rpower x (1 + alpha) / (1 + alpha).

Lemma is_derive_Rpower x e : 0 < x -> is_derive (fun y => Rpower y e) x (e * Rpower x (e - 1)).
Proof.
  intros Hx. apply is_derive_Reals. apply derivable_pt_lim_power. auto.
Qed.

Lemma antider_derive alpha x : 0 < x -> is_derive (antider alpha) x (Rpower x alpha).
Proof.
  intros Hx. unfold antider. destruct (Req_EM_T alpha (-1)) as [->|Ha].
  - apply is_derive_Reals. replace (-1) with (Ropp 1) by ring; rewrite Rpower_Ropp, Rpower_1 by auto. now apply derivable_pt_lim_ln.
  - replace (Rpower x alpha) with (scal (/ (1 + alpha)) ((1 + alpha) * Rpower x (1 + alpha - 1))).
    2:{ unfold scal; simpl; unfold mult; simpl. replace (1 + alpha - 1) with alpha by ring. field; lra. }
    apply is_derive_ext with (fun y => scal (/ (1 + alpha)) (Rpower y (1 + alpha))).
    { intros t. unfold scal; simpl; unfold mult; simpl. unfold Rdiv. ring. }
    apply is_derive_scal. now apply is_derive_Rpower.
Qed.

Lemma Rpower_pos x e : 0 < Rpower x e.
Proof. apply exp_pos. Qed.

Lemma Rpower_lt_pos s x y : 0 < s -> 0 < x < y -> Rpower x s < Rpower y s.
Proof.
  intros Hs Hxy. unfold Rpower. apply exp_increasing. apply Rmult_lt_compat_l; auto.
  now apply ln_increasing.
Qed.
Lemma Rpower_lt_neg s x y : s < 0 -> 0 < x < y -> Rpower y s < Rpower x s.
Proof.
  intros Hs Hxy. unfold Rpower. apply exp_increasing.
  apply Rmult_lt_gt_compat_neg_l; auto. now apply ln_increasing.
Qed.
Lemma Rpower_diff_pos s x y : s <> 0 -> 0 < x < y -> 0 < (Rpower y s - Rpower x s) / s.
Proof.
  intros Hs Hxy. destruct (Rlt_dec 0 s) as [P|P].
  - pose proof (Rpower_lt_pos s x y P Hxy). apply Rdiv_lt_0_compat; lra.
  - pose proof (Rpower_lt_neg s x y ltac:(lra) Hxy).
    replace ((Rpower y s - Rpower x s) / s) with ((Rpower x s - Rpower y s) / (- s)) by (field; lra).
    apply Rdiv_lt_0_compat; lra.
Qed.
Lemma Rpower_diff_ne s x y : s <> 0 -> 0 < x < y -> Rpower y s - Rpower x s <> 0.
Proof.
  intros Hs Hxy E. pose proof (Rpower_diff_pos s x y Hs Hxy) as H. rewrite E in H.
  unfold Rdiv in H. rewrite Rmult_0_l in H. lra.
Qed.

Lemma antider_incr alpha x y : 0 < x < y -> antider alpha x < antider alpha y.
Proof.
  intros Hxy. unfold antider. destruct (Req_EM_T alpha (-1)) as [->|Ha].
  - now apply ln_increasing.
  - pose proof (Rpower_diff_pos (1 + alpha) x y ltac:(lra) Hxy) as H.
    unfold Rdiv in *. rewrite Rmult_minus_distr_r in H. lra.
Qed.
Lemma antider_le alpha x y : 0 < x -> x <= y -> antider alpha x <= antider alpha y.
Proof. intros Hx [H| ->]; [left; apply antider_incr; lra|lra]. Qed.
Lemma antider_inj alpha x y : 0 < x -> 0 < y -> antider alpha x = antider alpha y -> x = y.
Proof.
  intros Hx Hy E. destruct (Rtotal_order x y) as [H|[H|H]]; auto.
  - pose proof (antider_incr alpha x y ltac:(lra)); lra.
  - pose proof (antider_incr alpha y x ltac:(lra)); lra.
Qed.

Lemma xpower_pos x e : 0 < x -> xpower x e = Fin (Rpower x e).
Proof. intros; unfold xpower. destruct (Rlt_dec 0 x); [auto|lra]. Qed.

Lemma log_norm_fin alpha l h : 0 < l < h -> log_norm alpha l h = Fin (ln (antider alpha h - antider alpha l)).
Proof.
  intros H. pose proof (antider_incr alpha l h H) as HG. unfold log_norm, antider in *.
  destruct (Req_EM_T alpha (-1)) as [E|E].
  - rewrite !xln_fin by lra. rewrite xsub_fin, xln_fin by lra. auto.
  - rewrite !xpower_pos, xsub_fin, xdiv_fin' by lra.
    replace (Rpower h (1 + alpha) / (1 + alpha) - Rpower l (1 + alpha) / (1 + alpha))
      with ((Rpower h (1 + alpha) - Rpower l (1 + alpha)) / (1 + alpha)) in * by (field; lra).
    rewrite xln_fin by lra. auto.
Qed.

Lemma log_prob_fin x alpha l h : 0 < x -> 0 < l < h ->
  powerlaw_log_prob x alpha l h = Fin (alpha * ln x - ln (antider alpha h - antider alpha l)).
Proof.
  intros Hx H. unfold powerlaw_log_prob. rewrite xln_fin, log_norm_fin by lra.
  rewrite xmul_fin. now rewrite xsub_fin.
Qed.

Lemma density_value x alpha l h : 0 < x -> 0 < l < h ->
  wexp (powerlaw_log_prob x alpha l h) = Rpower x alpha / (antider alpha h - antider alpha l).
Proof.
  intros Hx H. rewrite log_prob_fin by auto. cbn [wexp].
  pose proof (antider_incr alpha l h H).
  unfold Rminus at 1. rewrite exp_plus, exp_Ropp, exp_ln by lra. reflexivity.
Qed.

(** ** C32 *)
Lemma powerlaw_integral alpha l h a b : 0 < l < h -> 0 < a -> a <= b ->
  is_RInt (fun x => wexp (powerlaw_log_prob x alpha l h)) a b
    ((antider alpha b - antider alpha a) / (antider alpha h - antider alpha l)).
Proof.
  intros H Ha Hab. set (Z := antider alpha h - antider alpha l).
  assert (HZ : 0 < Z) by (pose proof (antider_incr alpha l h H); unfold Z; lra).
  apply is_RInt_ext with (fun x => scal (/ Z) (Rpower x alpha)).
  { rewrite Rmin_left, Rmax_right by lra. intros x Hx. rewrite density_value by lra.
    unfold scal; simpl; unfold mult; simpl. unfold Z, Rdiv. ring. }
  replace ((antider alpha b - antider alpha a) / Z) with (scal (/ Z) (minus (antider alpha b) (antider alpha a))).
  2:{ unfold scal, minus, plus, opp; simpl; unfold mult; simpl. unfold Rdiv. ring. }
  apply @is_RInt_scal. apply @is_RInt_derive.
  - rewrite Rmin_left, Rmax_right by lra. intros x Hx. apply antider_derive; lra.
  - rewrite Rmin_left, Rmax_right by lra. intros x Hx.
    apply @ex_derive_continuous. exists (alpha * Rpower x (alpha - 1)). apply is_derive_Rpower; lra.
Qed.

Theorem powerlaw_normalised alpha l h : 0 < l < h ->
  integrates_to (fun x => powerlaw_log_prob x alpha l h) l h 1.
Proof.
  intros H. unfold integrates_to.
  pose proof (antider_incr alpha l h H) as HG.
  replace 1 with ((antider alpha h - antider alpha l) / (antider alpha h - antider alpha l)) by (field; lra).
  apply powerlaw_integral; lra.
Qed.

(** ** C33 *)
Lemma clip_fin r : clip01 (Fin r) = Fin (Rmin (Rmax r 0) 1).
Proof. reflexivity. Qed.
Lemma clip_inside r : 0 <= r <= 1 -> clip01 (Fin r) = Fin r.
Proof. intros. simpl. rewrite Rmax_left, Rmin_left by lra. auto. Qed.

Lemma cdf_pos x alpha l h : 0 < x -> 0 < l < h ->
  powerlaw_cdf x alpha l h
  = clip01 (Fin ((antider alpha x - antider alpha l) / (antider alpha h - antider alpha l))).
Proof.
  intros Hx H. pose proof (antider_incr alpha l h H) as HG.
  unfold powerlaw_cdf, antider in *. destruct (Req_EM_T alpha (-1)) as [E|E].
  - rewrite !xdiv_fin' by lra.
    rewrite !xln_fin by (apply Rdiv_lt_0_compat; lra).
    rewrite !ln_div by lra. rewrite xdiv_fin' by lra. reflexivity.
  - rewrite !xpower_pos by lra. rewrite !xsub_fin.
    pose proof (Rpower_diff_ne (1 + alpha) l h ltac:(lra) H).
    rewrite xdiv_fin' by auto. do 2 f_equal. field. repeat split; lra.
Qed.

Lemma cdf_inside x alpha l h : 0 < l < h -> l <= x <= h ->
  powerlaw_cdf x alpha l h = Fin ((antider alpha x - antider alpha l) / (antider alpha h - antider alpha l))
  /\ 0 <= (antider alpha x - antider alpha l) / (antider alpha h - antider alpha l) <= 1.
Proof.
  intros H Hx. pose proof (antider_incr alpha l h H) as HG.
  pose proof (antider_le alpha l x ltac:(lra) ltac:(lra)).
  pose proof (antider_le alpha x h ltac:(lra) ltac:(lra)).
  assert (B : 0 <= (antider alpha x - antider alpha l) / (antider alpha h - antider alpha l) <= 1).
  { split; [apply Rle_div_r; lra|apply Rle_div_l; lra]. }
  rewrite cdf_pos by lra. rewrite clip_inside by auto. auto.
Qed.

Theorem cdf_below x alpha l h : 0 < l < h -> 0 <= x <= l -> powerlaw_cdf x alpha l h = Fin 0.
Proof.
  intros H [[Hx|Hx] Hxl].
  - pose proof (antider_incr alpha l h H) as HG.
    pose proof (antider_le alpha x l Hx Hxl).
    rewrite cdf_pos, clip_fin by lra.
    assert ((antider alpha x - antider alpha l) / (antider alpha h - antider alpha l) <= 0).
    { apply Rle_div_l; lra. }
    rewrite Rmax_right, Rmin_left by lra. auto.
  - subst x. unfold powerlaw_cdf. destruct (Req_EM_T alpha (-1)) as [E|E].
    + rewrite !xdiv_fin' by lra. replace (0 / l) with 0 by (field; lra). rewrite xln_zero.
      assert (0 < ln (h / l)) by (rewrite ln_div by lra; pose proof (ln_increasing l h ltac:(lra) ltac:(lra)); lra).
      rewrite xln_fin by (apply Rdiv_lt_0_compat; lra).
      unfold xdiv. destruct (Rlt_dec (ln (h / l)) 0); [lra|reflexivity].
    + rewrite !(xpower_pos l), !(xpower_pos h) by lra.
      pose proof (Rpower_pos l (1 + alpha)). pose proof (Rpower_pos h (1 + alpha)).
      unfold xpower. destruct (Rlt_dec 0 0); [lra|].
      destruct (Req_EM_T (1 + alpha) 0); [lra|]. destruct (Req_EM_T 0 0); [|lra].
      destruct (Rlt_dec 0 (1 + alpha)) as [P|P].
      * pose proof (Rpower_lt_pos (1 + alpha) l h P H).
        rewrite !xsub_fin, xdiv_fin', clip_fin by lra.
        assert ((0 - Rpower l (1 + alpha)) / (Rpower h (1 + alpha) - Rpower l (1 + alpha)) <= 0)
          by (apply Rle_div_l; lra).
        rewrite Rmax_right, Rmin_left by lra. auto.
      * pose proof (Rpower_lt_neg (1 + alpha) l h ltac:(lra) H).
        rewrite xsub_fin. unfold xsub at 1. cbn [xopp xadd]. unfold xdiv.
        destruct (Rlt_dec (Rpower h (1 + alpha) - Rpower l (1 + alpha)) 0); [reflexivity|lra].
Qed.

Theorem cdf_above x alpha l h : 0 < l < h -> h <= x -> powerlaw_cdf x alpha l h = Fin 1.
Proof.
  intros H Hx. pose proof (antider_incr alpha l h H) as HG.
  pose proof (antider_le alpha h x ltac:(lra) Hx).
  rewrite cdf_pos, clip_fin by lra.
  assert (1 <= (antider alpha x - antider alpha l) / (antider alpha h - antider alpha l)).
  { apply Rle_div_r; lra. }
  rewrite Rmax_left, Rmin_right by lra. auto.
Qed.

Theorem cdf_negative_wrong : powerlaw_cdf (-10) 1 1 5 = Fin 1.
Proof.
  unfold powerlaw_cdf. destruct (Req_EM_T 1 (-1)); [lra|].
  rewrite !(xpower_pos 1), !(xpower_pos 5) by lra.
  unfold xpower. destruct (Rlt_dec 0 (-10)); [lra|]. destruct (Req_EM_T (1 + 1) 0); [lra|].
  destruct (Req_EM_T (-10) 0); [lra|].
  assert (I : Int_part (1 + 1) = 2%Z).
  { replace (1 + 1) with (IZR 2) by (simpl; lra). unfold Int_part.
    rewrite <- (tech_up (IZR 2) 3); [reflexivity|simpl; lra|simpl; lra]. }
  rewrite I. destruct (Req_EM_T (1 + 1) (IZR 2)); [|simpl in *; lra].
  replace (1 + 1) with (INR 2) by (simpl; lra). rewrite !Rpower_pow by lra.
  rewrite !xsub_fin, xdiv_fin' by (simpl; lra). rewrite clip_fin. f_equal.
  simpl. rewrite Rmax_left by lra. rewrite Rmin_right by lra. auto.
Qed.

Theorem cdf_increasing x y alpha l h : 0 < l < h -> l <= x -> x < y -> y <= h ->
  exists p q, powerlaw_cdf x alpha l h = Fin p /\ powerlaw_cdf y alpha l h = Fin q /\ p < q.
Proof.
  intros H Hx Hxy Hy. pose proof (antider_incr alpha l h H) as HG.
  pose proof (antider_incr alpha x y ltac:(lra)).
  destruct (cdf_inside x alpha l h H ltac:(lra)) as [-> _].
  destruct (cdf_inside y alpha l h H ltac:(lra)) as [-> _].
  do 2 eexists; repeat split. unfold Rdiv. apply Rmult_lt_compat_r; [apply Rinv_0_lt_compat|]; lra.
Qed.

Lemma locally_pos (g : R -> R) a : continuous g a -> 0 < g a -> locally a (fun x => 0 < g x).
Proof. intros C P. apply (C (fun y => 0 < y)). apply (open_gt 0 (g a) P). Qed.

Lemma has_derivative_intro (F : R -> X) (f : R -> R) a r :
  locally a (fun x => F x = Fin (f x)) -> is_derive f a r -> has_derivative F a r.
Proof.
  intros [eps He] Hd. exists f, eps. split; [apply cond_pos|]. split.
  - intros x Hx. apply He. exact Hx.
  - now apply is_derive_Reals.
Qed.

Lemma has_derivative_unique F a r1 r2 : has_derivative F a r1 -> has_derivative F a r2 -> r1 = r2.
Proof.
  intros (f & e1 & P1 & H1 & D1) (g & e2 & P2 & H2 & D2).
  assert (is_derive f a r2).
  { apply (is_derive_ext_loc g).
    - assert (Hm : 0 < Rmin e1 e2) by (apply Rmin_pos; auto).
      exists (mkposreal _ Hm). intros y Hy.
      assert (Hy1 : Rabs (y - a) < Rmin e1 e2) by exact Hy.
      pose proof (Rmin_l e1 e2). pose proof (Rmin_r e1 e2).
      assert (E : Fin (f y) = Fin (g y)) by (rewrite <- H1, <- H2 by lra; auto).
      now injection E.
    - now apply is_derive_Reals. }
  apply is_derive_Reals in H. eapply uniqueness_limite; eauto.
Qed.

Lemma locally_between a b x : a < x < b -> locally x (fun y => a < y < b).
Proof.
  intros [H1 H2]. apply filter_and; [apply (open_gt a x H1)|apply (open_lt b x H2)].
Qed.

Theorem cdf_derivative x alpha l h : 0 < l -> l < x < h ->
  has_derivative (fun y => powerlaw_cdf y alpha l h) x (wexp (powerlaw_log_prob x alpha l h)).
Proof.
  intros Hl Hx. pose proof (antider_incr alpha l h ltac:(lra)) as HG.
  apply has_derivative_intro with
    (fun y => (antider alpha y - antider alpha l) / (antider alpha h - antider alpha l)).
  - generalize (locally_between l h x Hx). apply filter_imp. intros y Hy.
    apply (cdf_inside y alpha l h); lra.
  - rewrite density_value by lra.
    apply is_derive_ext with
      (fun y => scal (/ (antider alpha h - antider alpha l)) (minus (antider alpha y) (antider alpha l))).
    { intros t. unfold scal, minus, plus, opp; simpl; unfold mult; simpl. unfold Rdiv. ring. }
    unfold Rdiv. rewrite Rmult_comm. apply is_derive_scal.
    replace (Rpower x alpha) with (minus (Rpower x alpha) zero)
      by (unfold minus, plus, opp, zero; simpl; ring).
    apply @is_derive_minus; [apply antider_derive; lra|apply @is_derive_const].
Qed.

(** the convex combination of positive numbers is positive *)
Lemma convex_pos a b q : 0 < a -> 0 < b -> 0 <= q <= 1 -> 0 < a + q * (b - a).
Proof.
  intros Ha Hb [[Hq|<-] Hq1]; [|lra].
  replace (a + q * (b - a)) with ((1 - q) * a + q * b) by ring.
  pose proof (Rmult_lt_0_compat q b Hq Hb). pose proof (Rmult_le_pos (1 - q) a ltac:(lra) ltac:(lra)). lra.
Qed.

Lemma icdf_fin q alpha l h : 0 < l < h -> 0 <= q <= 1 ->
  exists x, powerlaw_icdf q alpha l h = Fin x /\ 0 < x
    /\ antider alpha x = antider alpha l + q * (antider alpha h - antider alpha l).
Proof.
  intros H Hq. unfold powerlaw_icdf, antider. destruct (Req_EM_T alpha (-1)) as [E|E].
  - rewrite xdiv_fin' by lra.
    assert (0 < h / l) by (apply Rdiv_lt_0_compat; lra).
    rewrite xpower_pos by auto. rewrite xmul_fin. eexists; split; [reflexivity|].
    pose proof (Rpower_pos (h / l) q). split; [apply Rmult_lt_0_compat; lra|].
    rewrite ln_mult by lra. unfold Rpower. rewrite ln_exp, ln_div by lra. ring.
  - rewrite !xpower_pos by lra. rewrite xsub_fin, xmul_fin. cbn [xadd].
    pose proof (convex_pos _ _ q (Rpower_pos l (1 + alpha)) (Rpower_pos h (1 + alpha)) Hq) as P.
    rewrite xpower_pos by auto. eexists; split; [reflexivity|]. split; [apply Rpower_pos|].
    rewrite Rpower_mult, Rinv_l, Rpower_1 by lra. field. lra.
Qed.

Lemma icdf_range q alpha l h x : 0 < l < h -> 0 <= q <= 1 ->
  0 < x -> antider alpha x = antider alpha l + q * (antider alpha h - antider alpha l) -> l <= x <= h.
Proof.
  intros H Hq Hx E. pose proof (antider_incr alpha l h H) as HG.
  pose proof (Rmult_le_pos q _ ltac:(apply Hq) (Rlt_le _ _ (proj1 (Rminus_lt_0 _ _) HG))).
  pose proof (Rmult_le_pos (1 - q) _ ltac:(lra) (Rlt_le _ _ (proj1 (Rminus_lt_0 _ _) HG))).
  split; apply Rnot_lt_le; intros C.
  - pose proof (antider_incr alpha x l ltac:(lra)). lra.
  - pose proof (antider_incr alpha h x ltac:(lra)). lra.
Qed.

Theorem cdf_icdf q alpha l h : 0 < l < h -> 0 <= q <= 1 ->
  exists x, powerlaw_icdf q alpha l h = Fin x /\ l <= x <= h /\ powerlaw_cdf x alpha l h = Fin q.
Proof.
  intros H Hq. destruct (icdf_fin q alpha l h H Hq) as (x & E & Hx & Ex).
  pose proof (antider_incr alpha l h H) as HG.
  pose proof (icdf_range q alpha l h x H Hq Hx Ex) as R. exists x. repeat split; try tauto.
  destruct (cdf_inside x alpha l h H R) as [-> _]. f_equal. rewrite Ex. field. lra.
Qed.

Theorem icdf_cdf x alpha l h : 0 < l < h -> l <= x <= h ->
  exists q, powerlaw_cdf x alpha l h = Fin q /\ 0 <= q <= 1 /\ powerlaw_icdf q alpha l h = Fin x.
Proof.
  intros H Hx. destruct (cdf_inside x alpha l h H Hx) as [E B].
  set (q := (antider alpha x - antider alpha l) / (antider alpha h - antider alpha l)) in *.
  exists q. repeat split; try tauto.
  destruct (icdf_fin q alpha l h H B) as (y & -> & Hy & Ey). f_equal.
  apply (antider_inj alpha); [lra|lra|]. rewrite Ey. unfold q. field.
  pose proof (antider_incr alpha l h H); lra.
Qed.

Theorem icdf_increasing p q alpha l h : 0 < l < h -> 0 <= p -> p < q -> q <= 1 ->
  exists x y, powerlaw_icdf p alpha l h = Fin x /\ powerlaw_icdf q alpha l h = Fin y /\ x < y.
Proof.
  intros H Hp Hpq Hq.
  destruct (icdf_fin p alpha l h H ltac:(lra)) as (x & -> & Hx & Ex).
  destruct (icdf_fin q alpha l h H ltac:(lra)) as (y & -> & Hy & Ey).
  exists x, y. repeat split. apply Rnot_le_lt. intros C.
  pose proof (antider_incr alpha l h H). pose proof (antider_le alpha y x Hy C).
  assert (p * (antider alpha h - antider alpha l) < q * (antider alpha h - antider alpha l))
    by (apply Rmult_lt_compat_r; lra). lra.
Qed.

Theorem sample_follows_cdf u t alpha l h : 0 < l < h -> 0 <= u < 1 -> l <= t <= h ->
  exists x c, powerlaw_icdf u alpha l h = Fin x /\ powerlaw_cdf t alpha l h = Fin c /\ (x <= t <-> u <= c).
Proof.
  intros H Hu Ht. destruct (icdf_fin u alpha l h H ltac:(lra)) as (x & -> & Hx & Ex).
  destruct (cdf_inside t alpha l h H Ht) as [-> _]. do 2 eexists; repeat split.
  - intros C. pose proof (antider_incr alpha l h H). pose proof (antider_le alpha x t Hx C).
    apply Rle_div_r; lra.
  - intros C. pose proof (antider_incr alpha l h H). apply Rle_div_r in C; [|lra].
    apply Rnot_lt_le. intros C'. pose proof (antider_incr alpha t x ltac:(lra)). lra.
Qed.
