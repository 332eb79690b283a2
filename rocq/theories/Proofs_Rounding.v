(** Lemmas for the rounding properties. *)
From Coq Require Import Reals List ZArith Permutation Lra Lia.
From Flocq Require Import Core Relative Plus_error.
From Verif Require Import Model_Rounding Spec_Rounding.
Import ListNotations.
Open Scope R_scope.

(** ** Sums of lists *)

Lemma sum_of_app : forall a b, sum_of (a ++ b) = sum_of a + sum_of b.
Proof. induction a; intros b; simpl. { ring. } unfold sum_of in *. simpl. rewrite IHa. ring. Qed.

Lemma sum_of_perm : forall a b, Permutation a b -> sum_of a = sum_of b.
Proof. induction 1; unfold sum_of in *; simpl; lra. Qed.

Lemma sum_of_zeros : forall k, sum_of (repeat 0 k) = 0.
Proof. induction k; unfold sum_of in *; simpl; lra. Qed.

Lemma abs_zeros : forall k, map Rabs (repeat 0 k) = repeat 0 k.
Proof. induction k; simpl; [reflexivity|]. rewrite Rabs_R0, IHk. reflexivity. Qed.

Lemma sum_abs_pos : forall l, 0 <= sum_of (map Rabs l).
Proof. induction l; unfold sum_of in *; simpl; [lra|]. pose proof (Rabs_pos a). lra. Qed.

Lemma sum_abs_ge : forall l, Rabs (sum_of l) <= sum_of (map Rabs l).
Proof.
  induction l; unfold sum_of in *; simpl. { rewrite Rabs_R0. lra. }
  pose proof (Rabs_triang a (fold_right Rplus 0 l)). lra.
Qed.

Lemma sum_le : forall {A} (f g : A -> R) l, (forall x, In x l -> f x <= g x) ->
  sum_of (map f l) <= sum_of (map g l).
Proof.
  induction l; intros H; unfold sum_of in *; simpl. { lra. }
  pose proof (H a (or_introl eq_refl)). assert (forall x, In x l -> f x <= g x) by (intros; apply H; right; auto).
  specialize (IHl H1). lra.
Qed.

Lemma sum_const : forall {A} (c : R) (l : list A), sum_of (map (fun _ => c) l) = INR (length l) * c.
Proof.
  induction l. { unfold sum_of. simpl. ring. }
  change (sum_of (map (fun _ => c) (a :: l))) with (c + sum_of (map (fun _ : A => c) l)).
  rewrite IHl. cbn [length]. rewrite S_INR. ring.
Qed.

Lemma sum_diff : forall {A} (f g d : A -> R) l,
  (forall x, In x l -> Rabs (f x - g x) <= d x) ->
  Rabs (sum_of (map f l) - sum_of (map g l)) <= sum_of (map d l) /\
  sum_of (map Rabs (map f l)) <= sum_of (map Rabs (map g l)) + sum_of (map d l).
Proof.
  intros A f g d l. induction l as [|a l IH]; intros H.
  { unfold sum_of. simpl. rewrite Rminus_eq_0, Rabs_R0. lra. }
  destruct IH as [I1 I2]. { intros; apply H; right; auto. }
  specialize (H a (or_introl eq_refl)).
  unfold sum_of in *. cbn [map fold_right].
  split.
  { replace (f a + fold_right Rplus 0 (map f l) - (g a + fold_right Rplus 0 (map g l)))
      with ((f a - g a) + (fold_right Rplus 0 (map f l) - fold_right Rplus 0 (map g l))) by ring.
    eapply Rle_trans; [apply Rabs_triang|]. lra. }
  { pose proof (Rabs_triang (f a - g a) (g a)) as T.
    replace (f a - g a + g a) with (f a) in T by ring. lra. }
Qed.

Lemma sum_plus : forall {A} (f g : A -> R) l,
  sum_of (map (fun x => f x + g x) l) = sum_of (map f l) + sum_of (map g l).
Proof. intros A f g l. induction l; unfold sum_of in *; simpl; [ring|]. rewrite IHl. ring. Qed.

Lemma sum_mult : forall {A} (c : R) (f : A -> R) l, sum_of (map (fun x => c * f x) l) = c * sum_of (map f l).
Proof. intros A c f l. induction l; unfold sum_of in *; simpl; [ring|]. rewrite IHl. ring. Qed.

(** ** Elementary inequalities *)

Lemma exp_ge_2d : forall d, 2 * d <= exp d.
Proof.
  intros d. destruct (Rle_lt_dec d 0) as [N|P]. { pose proof (exp_pos d). lra. }
  replace d with (d / 2 + d / 2) at 2 by field. rewrite exp_plus.
  pose proof (exp_ineq1_le (d / 2)) as E.
  assert (0 <= 1 + d / 2) by lra.
  apply Rle_trans with ((1 + d / 2) * (1 + d / 2)).
  { pose proof (Rle_0_sqr (1 - d / 2)) as Q. unfold Rsqr in Q. lra. }
  apply Rmult_le_compat; lra.
Qed.

Lemma exp_diff_le : forall a b c, a <= c -> b <= c -> Rabs (exp a - exp b) <= Rabs (a - b) * exp c.
Proof.
  assert (W : forall a b c, b <= a -> a <= c -> exp a - exp b <= (a - b) * exp c).
  { intros a b c Hba Hac.
    assert (exp a - exp b <= (a - b) * exp a).
    { pose proof (exp_ineq1_le (b - a)) as E.
      replace (exp b) with (exp a * exp (b - a)) by (rewrite <- exp_plus; f_equal; ring).
      pose proof (exp_pos a). nra. }
    assert (exp a <= exp c) by (destruct Hac as [Hac|Hac]; [left; now apply exp_increasing | right; now rewrite Hac]).
    nra. }
  intros a b c Ha Hb. destruct (Rle_lt_dec b a) as [L|L].
  { rewrite (Rabs_pos_eq (a - b)) by lra.
    assert (exp b <= exp a) by (destruct L as [L|L]; [left; now apply exp_increasing | right; now rewrite L]).
    rewrite Rabs_pos_eq by lra. now apply W. }
  { rewrite (Rabs_minus_sym a b), (Rabs_minus_sym (exp a)), (Rabs_pos_eq (b - a)) by lra.
    assert (exp a <= exp b) by (left; now apply exp_increasing).
    rewrite Rabs_pos_eq by lra. apply W; lra. }
Qed.

Lemma exp_mono : forall a b, a <= b -> exp a <= exp b.
Proof. intros a b [H|H]; [left; now apply exp_increasing|right; now rewrite H]. Qed.

Lemma exp_perturbed_by : forall u x x', 0 <= u <= / 2 -> x <= 0 -> Rabs (x' - x) <= u * Rabs x ->
  x' <= (1 - u) * x /\ Rabs (exp x' - exp x) <= u * - x * exp ((1 - u) * x).
Proof.
  intros u x x' Hu Hx H. rewrite (Rabs_left1 x) in H by assumption.
  assert (Hx' : x' <= (1 - u) * x).
  { assert (x' - x <= u * - x) by (eapply Rle_trans; [apply Rle_abs|exact H]). lra. }
  split; [exact Hx'|].
  eapply Rle_trans. { apply exp_diff_le with (c := (1 - u) * x); [exact Hx'|nra]. }
  apply Rmult_le_compat_r; [left; apply exp_pos|exact H].
Qed.

Lemma exp_perturbed : forall u x x', 0 <= u <= / 2 -> x <= 0 -> Rabs (x' - x) <= u * Rabs x ->
  x' <= 0 /\ Rabs (exp x' - exp x) <= u.
Proof.
  intros u x x' Hu Hx H. rewrite (Rabs_left1 x) in H by assumption.
  set (D := - x) in *. assert (HD : 0 <= D) by (unfold D; lra).
  assert (Hx' : x' <= - (D * (1 - u))).
  { assert (x' - x <= u * D) by (eapply Rle_trans; [apply Rle_abs|exact H]). unfold D in *. nra. }
  split. { nra. }
  eapply Rle_trans. { apply exp_diff_le with (c := - (D * (1 - u))). { exact Hx'. } unfold D. nra. }
  set (d := D * (1 - u)) in *.
  pose proof (exp_ge_2d d) as E. rewrite exp_Ropp. pose proof (exp_pos d) as P.
  assert (Hd : d * / exp d <= / 2).
  { apply Rmult_le_reg_r with (exp d); [exact P|]. rewrite Rmult_assoc, Rinv_l by lra. lra. }
  apply Rle_trans with (u * D * / exp d).
  { apply Rmult_le_compat_r; [left; now apply Rinv_0_lt_compat|exact H]. }
  assert (0 <= / exp d) by (left; now apply Rinv_0_lt_compat).
  assert (D <= 2 * d) by (unfold d; nra).
  assert (D * / exp d <= 1) by nra.
  replace (u * D * / exp d) with (u * (D * / exp d)) by ring. nra.
Qed.

Lemma ln_quotient : forall a b, 0 < a -> 0 < b -> ln (a / b) = ln a - ln b.
Proof.
  intros a b Ha Hb. unfold Rdiv. rewrite ln_mult; [|exact Ha|now apply Rinv_0_lt_compat].
  rewrite ln_Rinv by exact Hb. ring.
Qed.

Lemma ln_perturbed : forall q S s, 0 < S -> 0 <= q < 1 -> Rabs (s - S) <= q * S ->
  0 < s /\ Rabs (ln s - ln S) <= of_relative q.
Proof.
  intros q S s HS Hq H. unfold of_relative.
  apply Rabs_le_inv in H. assert (Hs : 0 < s) by nra. split; [exact Hs|].
  assert (L : forall y, 0 < y -> ln y <= y - 1).
  { intros y Hy. pose proof (exp_ineq1_le (ln y)) as E. rewrite exp_ln in E by assumption. lra. }
  assert (Q : q <= q / (1 - q)).
  { apply Rmult_le_reg_r with (1 - q); [lra|]. unfold Rdiv. rewrite Rmult_assoc, Rinv_l by lra. nra. }
  apply Rabs_le. split.
  { assert (E : ln S - ln s <= S / s - 1).
    { rewrite <- ln_quotient by assumption. apply L. now apply Rdiv_lt_0_compat. }
    assert (S / s - 1 <= q / (1 - q)); [|lra].
    apply Rmult_le_reg_r with (s * (1 - q)); [nra|].
    replace ((S / s - 1) * (s * (1 - q))) with ((S - s) * (1 - q)) by (field; lra).
    replace (q / (1 - q) * (s * (1 - q))) with (q * s) by (field; lra). nra. }
  { assert (E : ln s - ln S <= s / S - 1).
    { rewrite <- ln_quotient by assumption. apply L. now apply Rdiv_lt_0_compat. }
    assert (s / S - 1 <= q); [|lra].
    apply Rmult_le_reg_r with S; [lra|].
    replace ((s / S - 1) * S) with (s - S) by (field; lra). lra. }
Qed.

(** ** Growth *)

Lemma growth_pos : forall u h, 0 <= u -> 0 <= growth u h.
Proof. intros u h Hu. unfold growth. pose proof (pow_R1_Rle (1 + u) h ltac:(lra)). lra. Qed.

Lemma growth_mono : forall u h k, 0 <= u -> (h <= k)%nat -> growth u h <= growth u k.
Proof. intros u h k Hu L. unfold growth. pose proof (Rle_pow (1 + u) h k ltac:(lra) L). lra. Qed.

(** ** Rounding *)

Section Rounding.

Variables emin prec : Z.
Context {Hprec : Prec_gt_0 prec}.

Notation u := (unit_roundoff prec).
Notation flt := (is_float emin prec).
Notation fl := (fl emin prec).

Lemma u_is_u_ro : u_ro radix2 prec = u.
Proof.
  unfold u_ro, unit_roundoff. rewrite bpow_plus. simpl (bpow radix2 1). 
  change (IZR (Z.pow_pos 2 1)) with 2. field.
Qed.

Lemma u_bounds : 0 < u <= / 2.
Proof.
  unfold unit_roundoff. split. { apply bpow_gt_0. }
  change (/ 2) with (bpow radix2 (-1)). apply bpow_le. unfold Prec_gt_0 in Hprec. lia.
Qed.

Lemma fl_float : forall x, flt (fl x).
Proof. intros x. apply generic_format_round. { apply FLT_exp_valid. exact Hprec. } apply valid_rnd_N. Qed.

Lemma float_0 : flt 0.
Proof. apply generic_format_0. Qed.

Lemma float_opp : forall x, flt x -> flt (- x).
Proof. intros x. apply generic_format_opp. Qed.

Lemma fl_add : forall x y, flt x -> flt y -> Rabs (fl (x + y) - (x + y)) <= u * Rabs (x + y).
Proof.
  intros x y Fx Fy.
  destruct (FLT_plus_error_N_ex radix2 emin prec (fun x => negb (Z.even x)) x y Fx Fy) as (eps & He & E).
  unfold Model_Rounding.fl. rewrite E.
  replace ((x + y) * (1 + eps) - (x + y)) with (eps * (x + y)) by ring.
  rewrite Rabs_mult. apply Rmult_le_compat_r; [apply Rabs_pos|].
  eapply Rle_trans; [exact He|]. rewrite <- u_is_u_ro. apply u_rod1pu_ro_le_u_ro.
Qed.

Lemma fl_sub : forall x y, flt x -> flt y -> Rabs (fl (x - y) - (x - y)) <= u * Rabs (x - y).
Proof. intros x y Fx Fy. apply fl_add; [assumption|]. now apply float_opp. Qed.

Lemma fl_err : forall x, Rabs (fl x - x) <= u * Rabs x + / 2 * bpow radix2 emin.
Proof.
  intros x. destruct (relative_error_N_FLT'_ex radix2 emin prec Hprec (fun x => negb (Z.even x)) x)
    as (eps & eta & He & Hn & _ & E).
  unfold Model_Rounding.fl. rewrite E.
  replace (x * (1 + eps) + eta - x) with (eps * x + eta) by ring.
  eapply Rle_trans; [apply Rabs_triang|]. rewrite Rabs_mult.
  apply Rplus_le_compat; [|exact Hn]. apply Rmult_le_compat_r; [apply Rabs_pos|].
  eapply Rle_trans; [exact He|]. rewrite <- u_is_u_ro. apply u_rod1pu_ro_le_u_ro.
Qed.

Lemma tree_error : forall t, List.Forall flt (leaves t) ->
  flt (fl_sum emin prec t) /\
  Rabs (fl_sum emin prec t - sum_of (leaves t)) <= growth u (depth t) * sum_of (map Rabs (leaves t)).
Proof.
  pose proof u_bounds as U.
  induction t as [x|a IHa b IHb]; intros F.
  { simpl in *. split. { now inversion F. }
    unfold sum_of, growth. simpl. replace (x - (x + 0)) with 0 by ring. rewrite Rabs_R0. lra. }
  cbn [leaves] in *. apply Forall_app in F. destruct F as [Fa Fb].
  destruct (IHa Fa) as [Xa Ea]. destruct (IHb Fb) as [Xb Eb].
  split. { apply fl_float. }
  cbn [fl_sum depth]. rewrite map_app, !sum_of_app.
  set (h := Nat.max (depth a) (depth b)).
  pose proof (sum_abs_pos (leaves a)) as Pa. pose proof (sum_abs_pos (leaves b)) as Pb.
  pose proof (sum_abs_ge (leaves a)) as Qa. pose proof (sum_abs_ge (leaves b)) as Qb.
  assert (Ga : growth u (depth a) <= growth u h) by (apply growth_mono; [lra|unfold h; lia]).
  assert (Gb : growth u (depth b) <= growth u h) by (apply growth_mono; [lra|unfold h; lia]).
  pose proof (growth_pos u h) as G0.
  pose proof (fl_add _ _ Xa Xb) as E.
  set (sa := fl_sum emin prec a) in *. set (sb := fl_sum emin prec b) in *.
  set (Sa := sum_of (leaves a)) in *. set (Sb := sum_of (leaves b)) in *.
  set (A := sum_of (map Rabs (leaves a))) in *. set (B := sum_of (map Rabs (leaves b))) in *.
  assert (E1 : Rabs (sa - Sa) <= growth u h * A) by (eapply Rle_trans; [exact Ea|]; now apply Rmult_le_compat_r).
  assert (E2 : Rabs (sb - Sb) <= growth u h * B) by (eapply Rle_trans; [exact Eb|]; now apply Rmult_le_compat_r).
  assert (M : Rabs (sa + sb) <= (1 + growth u h) * (A + B)).
  { replace (sa + sb) with ((sa - Sa) + (sb - Sb) + (Sa + Sb)) by ring.
    eapply Rle_trans; [apply Rabs_triang|]. 
    pose proof (Rabs_triang (sa - Sa) (sb - Sb)). pose proof (Rabs_triang Sa Sb). lra. }
  replace (fl (sa + sb) - (Sa + Sb)) with ((fl (sa + sb) - (sa + sb)) + ((sa - Sa) + (sb - Sb))) by ring.
  eapply Rle_trans; [apply Rabs_triang|]. pose proof (Rabs_triang (sa - Sa) (sb - Sb)).
  replace (growth u (S h)) with (u * (1 + growth u h) + growth u h) by (unfold growth; simpl; ring).
  assert (u * Rabs (sa + sb) <= u * ((1 + growth u h) * (A + B))) by (apply Rmult_le_compat_l; lra).
  lra.
Qed.

Lemma depth_lt_leaves : forall t, (depth t < length (leaves t))%nat.
Proof. induction t; simpl; [lia|]. rewrite app_length. lia. Qed.

(** ** log sum exp *)

Variables (e eta : R) (fexp flog flog1p : R -> R) (order : list R -> tree).
Hypothesis e_pos : 0 <= e.
Hypothesis eta_pos : 0 <= eta.
Hypothesis exp_ok : accurate emin prec e eta (fun x => x <= 0) exp fexp.
Hypothesis log_ok : accurate emin prec e eta (fun x => 0 < x) ln flog.
Hypothesis log1p_ok : accurate emin prec e eta (fun x => -1 < x) (fun x => ln (1 + x)) flog1p.
Hypothesis order_ok : adds_up order.

Notation tau := (u + e + eta).

Lemma tau_pos : 0 < tau.
Proof. pose proof u_bounds. lra. Qed.

Definition xterm (m : R) (a : option R) : R := match a with Some x => exp (x - m) | None => 0 end.

Lemma exp_sub : forall x m, flt x -> flt m -> x <= m ->
  flt (fexp (fl (x - m))) /\ Rabs (fexp (fl (x - m)) - exp (x - m)) <= tau.
Proof.
  intros x m Fx Fm L. pose proof u_bounds as U.
  destruct (exp_perturbed u (x - m) (fl (x - m))) as [N E]; [lra|lra|now apply fl_sub|].
  destruct (exp_ok (fl (x - m)) (fl_float _) N) as [F A].
  split; [exact F|].
  assert (B : exp (fl (x - m)) <= 1).
  { rewrite <- exp_0. destruct N as [N|N]; [left; now apply exp_increasing|right; now rewrite N]. }
  rewrite (Rabs_pos_eq (exp (fl (x - m)))) in A by (left; apply exp_pos).
  replace (fexp (fl (x - m)) - exp (x - m))
    with ((fexp (fl (x - m)) - exp (fl (x - m))) + (exp (fl (x - m)) - exp (x - m))) by ring.
  eapply Rle_trans; [apply Rabs_triang|]. 
  assert (e * exp (fl (x - m)) <= e * 1) by (apply Rmult_le_compat_l; lra). lra.
Qed.

Lemma exp_sub_by : forall x m, flt x -> flt m -> x <= m ->
  flt (fexp (fl (x - m))) /\
  Rabs (fexp (fl (x - m)) - exp (x - m)) <= u * (m - x) * exp ((1 - u) * (x - m)) + e * exp ((1 - u) * (x - m)) + eta.
Proof.
  intros x m Fx Fm L. pose proof u_bounds as U.
  destruct (exp_perturbed_by u (x - m) (fl (x - m))) as [N E]; [lra|lra|now apply fl_sub|].
  assert (N0 : fl (x - m) <= 0) by nra.
  destruct (exp_ok (fl (x - m)) (fl_float _) N0) as [F A].
  split; [exact F|].
  pose proof (exp_mono _ _ N) as B.
  rewrite (Rabs_pos_eq (exp (fl (x - m)))) in A by (left; apply exp_pos).
  replace (fexp (fl (x - m)) - exp (x - m))
    with ((fexp (fl (x - m)) - exp (fl (x - m))) + (exp (fl (x - m)) - exp (x - m))) by ring.
  eapply Rle_trans; [apply Rabs_triang|].
  assert (e * exp (fl (x - m)) <= e * exp ((1 - u) * (x - m))) by (apply Rmult_le_compat_l; lra).
  replace (- (x - m)) with (m - x) in E by ring. lra.
Qed.

Lemma row_max_spec : forall v m, row_max v = Some m ->
  In (Some m) v /\ forall x, In (Some x) v -> x <= m.
Proof.
  induction v as [|[a|] v IH]; simpl; intros m H. { discriminate. }
  { destruct (row_max v) as [k|] eqn:K.
    { injection H as H. destruct (IH k eq_refl) as [I M]. subst m. split.
      { unfold Rmax. destruct (Rle_dec a k); [right; exact I|left; reflexivity]. }
      intros x [X|X]. { injection X as X. subst. apply Rmax_l. }
      eapply Rle_trans; [apply M; exact X|apply Rmax_r]. }
    injection H as H. subst m. split; [left; reflexivity|].
    intros x [X|X]. { injection X as X. subst. lra. }
    exfalso. clear IH. induction v as [|[b|] v IHv]; simpl in *; [contradiction| |].
    { destruct (row_max v); discriminate. }
    destruct X as [X|X]; [discriminate|]. now apply IHv. }
  destruct (IH m H) as [I M]. split; [right; exact I|].
  intros x [X|X]; [discriminate|]. now apply M.
Qed.

Lemma row_max_none : forall v, row_max v = None -> forall x, ~ In (Some x) v.
Proof.
  induction v as [|[b|] v IHv]; simpl; intros H x X; [contradiction| |].
  { destruct (row_max v); discriminate. }
  destruct X as [X|X]; [discriminate|]. eapply IHv; eauto.
Qed.

Lemma xterm_range : forall m v, (forall x, In (Some x) v -> x <= m) ->
  forall a, In a v -> 0 <= xterm m a <= 1.
Proof.
  intros m v H a I. destruct a as [x|]; simpl; [|lra].
  split; [left; apply exp_pos|]. specialize (H x I). rewrite <- exp_0.
  destruct (Rle_lt_or_eq_dec (x - m) 0) as [N|N]; [lra|left; now apply exp_increasing|right; now rewrite N].
Qed.

Lemma xsum_ge_1 : forall m v, (forall x, In (Some x) v -> x <= m) -> In (Some m) v ->
  1 <= sum_of (map (xterm m) v).
Proof.
  intros m v H I. assert (Rg := xterm_range m v H). clear H. induction v as [|a v IH]; [contradiction|].
  change (sum_of (map (xterm m) (a :: v))) with (xterm m a + sum_of (map (xterm m) v)).
  destruct I as [I|I].
  { subst a. simpl (xterm m (Some m)). rewrite Rminus_eq_0, exp_0.
    assert (0 <= sum_of (map (xterm m) v)); [|lra].
    replace 0 with (sum_of (map (fun _ : option R => 0) v)) by (rewrite sum_const; ring).
    apply sum_le. intros x X. apply Rg. now right. }
  assert (1 <= sum_of (map (xterm m) v)) by (apply IH; [exact I|intros; apply Rg; now right]).
  pose proof (Rg a (or_introl eq_refl)). lra.
Qed.

Lemma xsum_le_n : forall m v, (forall x, In (Some x) v -> x <= m) ->
  sum_of (map (xterm m) v) <= INR (length v).
Proof.
  intros m v H. rewrite <- (Rmult_1_r (INR (length v))), <- (sum_const (A := option R) 1 v).
  apply sum_le. intros x X. now apply xterm_range with v.
Qed.

Lemma xsum_abs : forall m v, sum_of (map Rabs (map (xterm m) v)) = sum_of (map (xterm m) v).
Proof.
  intros m v. rewrite map_map. f_equal. apply map_ext. intros [x|]; simpl.
  { apply Rabs_pos_eq. left. apply exp_pos. } apply Rabs_R0.
Qed.

Definition wterm (c m : R) (a : option R) : R :=
  match a with Some x => exp (c * (x - m)) | None => 0 end.
Definition wlog (c m : R) (a : option R) : R :=
  match a with Some x => - (c * (x - m)) * exp (c * (x - m)) | None => 0 end.

Lemma wterm_1 : forall m a, wterm 1 m a = xterm m a.
Proof. intros m [x|]; simpl; [f_equal; ring|reflexivity]. Qed.

(** the entropy of the weights is at most the logarithm of their number *)
Lemma entropy : forall c m v n, (length v <= n)%nat -> 1 <= sum_of (map (wterm c m) v) ->
  sum_of (map (wlog c m) v) <= sum_of (map (wterm c m) v) * ln (INR n).
Proof.
  intros c m v n Ln S1. set (S := sum_of (map (wterm c m) v)) in *.
  assert (N0 : 0 < INR n).
  { apply lt_0_INR. destruct v as [|a v]; [unfold S, sum_of in S1; simpl in S1; lra|simpl in Ln; lia]. }
  assert (E : forall a, In a v -> wlog c m a + (ln S - ln (INR n)) * wterm c m a <= S / INR n + - 1 * wterm c m a).
  { intros [x|] _; simpl.
    2:{ assert (0 <= S / INR n) by (apply Rmult_le_pos; [lra|left; now apply Rinv_0_lt_compat]). lra. }
    set (z := c * (x - m)). pose proof (exp_pos z) as P.
    assert (L : forall y, 0 < y -> ln y <= y - 1).
    { intros y Hy. pose proof (exp_ineq1_le (ln y)) as E. rewrite exp_ln in E by assumption. lra. }
    assert (Q : ln (S / (INR n * exp z)) = - z + (ln S - ln (INR n))).
    { rewrite ln_quotient by (try apply Rmult_lt_0_compat; lra). rewrite ln_mult by lra. rewrite ln_exp. ring. }
    pose proof (L (S / (INR n * exp z)) ltac:(apply Rdiv_lt_0_compat; [lra|now apply Rmult_lt_0_compat])) as K.
    rewrite Q in K.
    assert (K2 : exp z * (- z + (ln S - ln (INR n))) <= exp z * (S / (INR n * exp z) - 1)) by (apply Rmult_le_compat_l; lra).
    replace (exp z * (S / (INR n * exp z) - 1)) with (S / INR n + - 1 * exp z) in K2 by (field; lra). lra. }
  apply sum_le in E. rewrite !sum_plus, !sum_mult, sum_const in E. fold S in E.
  assert (X : INR (length v) * (S / INR n) <= S).
  { apply le_INR in Ln. replace S with (INR n * (S / INR n)) at 2 by (field; lra).
    apply Rmult_le_compat_r; [|exact Ln]. apply Rmult_le_pos; [lra|left; now apply Rinv_0_lt_compat]. }
  assert (0 <= S * ln S).
  { apply Rmult_le_pos; [lra|]. destruct S1 as [S1|S1]; [rewrite <- ln_1; left; apply ln_increasing; lra|rewrite <- S1, ln_1; lra]. }
  replace ((ln S - ln (INR n)) * S) with (S * ln S - S * ln (INR n)) in E by ring. lra.
Qed.

Lemma exp_convex : forall c a b, 0 <= c <= 1 -> exp (c * a + (1 - c) * b) <= c * exp a + (1 - c) * exp b.
Proof.
  intros c a b Hc. set (z := c * a + (1 - c) * b). pose proof (exp_pos z) as P.
  assert (T : forall y, exp z * (1 + (y - z)) <= exp y).
  { intros y. replace (exp y) with (exp z * exp (y - z)) by (rewrite <- exp_plus; f_equal; ring).
    apply Rmult_le_compat_l; [lra|]. apply exp_ineq1_le. }
  pose proof (T a) as Ta. pose proof (T b) as Tb.
  assert (c * (exp z * (1 + (a - z))) <= c * exp a) by (apply Rmult_le_compat_l; lra).
  assert ((1 - c) * (exp z * (1 + (b - z))) <= (1 - c) * exp b) by (apply Rmult_le_compat_l; lra).
  assert (c * (exp z * (1 + (a - z))) + (1 - c) * (exp z * (1 + (b - z))) = exp z) by (unfold z; ring). lra.
Qed.

(** raising the weights to a power below one makes them larger by little *)
Lemma power_sum : forall m v n, (length v <= n)%nat -> 1 <= sum_of (map (xterm m) v) ->
  sum_of (map (wterm (1 - u) m) v) <= exp (u * ln (INR n)) * sum_of (map (xterm m) v).
Proof.
  intros m v n Ln S1. pose proof u_bounds as U. set (S := sum_of (map (xterm m) v)) in *.
  assert (N0 : 0 < INR n).
  { apply lt_0_INR. destruct v as [|a v]; [unfold S, sum_of in S1; simpl in S1; lra|simpl in Ln; lia]. }
  set (l := ln (S / INR n)). assert (El : exp l = S / INR n) by (apply exp_ln, Rdiv_lt_0_compat; lra).
  assert (E : forall a, In a v -> exp (u * l) * wterm (1 - u) m a <= (1 - u) * xterm m a + u * (S / INR n)).
  { intros [x|] _; simpl.
    2:{ assert (0 <= S / INR n) by (apply Rmult_le_pos; [lra|left; now apply Rinv_0_lt_compat]). nra. }
    rewrite <- exp_plus. rewrite <- El. replace (u * l + (1 - u) * (x - m)) with ((1 - u) * (x - m) + (1 - (1 - u)) * l) by ring.
    eapply Rle_trans; [apply exp_convex; lra|]. right. ring. }
  apply sum_le in E. rewrite sum_plus, !sum_mult, sum_const in E. fold S in E.
  set (S' := sum_of (map (wterm (1 - u) m) v)) in *.
  assert (X : INR (length v) * (u * (S / INR n)) <= u * S).
  { apply le_INR in Ln. replace (u * S) with (INR n * (u * (S / INR n))) by (field; lra).
    apply Rmult_le_compat_r; [|exact Ln]. apply Rmult_le_pos; [lra|]. apply Rmult_le_pos; [lra|left; now apply Rinv_0_lt_compat]. }
  assert (E2 : exp (u * l) * S' <= S) by lra.
  assert (L : - (u * ln (INR n)) <= u * l).
  { unfold l. rewrite ln_quotient by lra.
    assert (0 <= ln S) by (destruct S1 as [S1|S1]; [rewrite <- ln_1; left; apply ln_increasing; lra|rewrite <- S1, ln_1; lra]). nra. }
  assert (S0 : 0 <= S').
  { unfold S'. replace 0 with (sum_of (map (fun _ : option R => 0) v)) by (rewrite sum_const; ring).
    apply sum_le. intros [x|] _; simpl; [left; apply exp_pos|lra]. }
  assert (E3 : exp (- (u * ln (INR n))) * S' <= S).
  { eapply Rle_trans; [|exact E2]. apply Rmult_le_compat_r; [exact S0|now apply exp_mono]. }
  replace S' with (exp (u * ln (INR n)) * (exp (- (u * ln (INR n))) * S')).
  2:{ rewrite <- Rmult_assoc, <- exp_plus, Rplus_opp_r, exp_0. ring. }
  apply Rmult_le_compat_l; [left; apply exp_pos|exact E3].
Qed.

Lemma ln_INR_pos : forall n, (1 <= n)%nat -> 0 <= ln (INR n).
Proof.
  intros n H. apply le_INR in H. simpl in H.
  destruct H as [H|H]; [rewrite <- ln_1; left; apply ln_increasing; lra|rewrite <- H, ln_1; lra].
Qed.

Lemma weight_error_pos : forall n, (1 <= n)%nat -> 0 <= weight_error u e eta n.
Proof.
  intros n H. pose proof u_bounds as U. pose proof (ln_INR_pos n H) as L. unfold weight_error.
  assert (0 <= u / (1 - u)) by (apply Rmult_le_pos; [lra|left; apply Rinv_0_lt_compat; lra]).
  assert (0 <= u / (1 - u) * ln (INR n)) by (now apply Rmult_le_pos).
  pose proof (exp_pos (u * ln (INR n))). pose proof (pos_INR n).
  assert (0 <= INR n * eta) by (now apply Rmult_le_pos). nra.
Qed.

Lemma weight_error_mono : forall n k, (1 <= n)%nat -> (n <= k)%nat -> weight_error u e eta n <= weight_error u e eta k.
Proof.
  intros n k H1 H. pose proof u_bounds as U. unfold weight_error.
  assert (L : 0 <= ln (INR n) <= ln (INR k)).
  { split; [now apply ln_INR_pos|]. apply le_INR in H, H1. simpl in H1.
    destruct H as [H|H]; [left; apply ln_increasing; lra|right; now rewrite H]. }
  apply le_INR in H.
  assert (C : 0 <= u / (1 - u)) by (apply Rmult_le_pos; [lra|left; apply Rinv_0_lt_compat; lra]).
  assert (exp (u * ln (INR n)) <= exp (u * ln (INR k))) by (apply exp_mono; apply Rmult_le_compat_l; lra).
  assert (u / (1 - u) * ln (INR n) <= u / (1 - u) * ln (INR k)) by (apply Rmult_le_compat_l; lra).
  assert (0 <= u / (1 - u) * ln (INR n)) by (apply Rmult_le_pos; lra).
  pose proof (exp_pos (u * ln (INR n))).
  assert (INR n * eta <= INR k * eta) by (apply Rmult_le_compat_r; lra).
  assert (exp (u * ln (INR n)) * (u / (1 - u) * ln (INR n) + e) <= exp (u * ln (INR k)) * (u / (1 - u) * ln (INR k) + e))
    by (apply Rmult_le_compat; lra). lra.
Qed.

Lemma sum_error_mono : forall n n' h h', (1 <= n)%nat -> (n <= n')%nat -> (h <= h')%nat ->
  0 <= sum_error u e eta n h <= sum_error u e eta n' h'.
Proof.
  intros n n' h h' L1 Ln Lh. unfold sum_error. pose proof u_bounds as U.
  pose proof (growth_mono u h h' ltac:(lra) Lh). pose proof (growth_pos u h ltac:(lra)).
  pose proof (weight_error_pos n L1). pose proof (weight_error_mono n n' L1 Ln).
  assert (growth u h * (1 + weight_error u e eta n) <= growth u h' * (1 + weight_error u e eta n')) by (apply Rmult_le_compat; lra).
  assert (0 <= growth u h * (1 + weight_error u e eta n)) by (apply Rmult_le_pos; lra). lra.
Qed.

Lemma of_relative_mono : forall p q, 0 <= p <= q -> q < 1 -> 0 <= of_relative p <= of_relative q.
Proof.
  intros p q H Q. unfold of_relative, Rdiv. 
  assert (0 < / (1 - p)) by (apply Rinv_0_lt_compat; lra).
  assert (/ (1 - p) <= / (1 - q)) by (apply Rinv_le_contravar; lra).
  split; [apply Rmult_le_pos; lra|]. apply Rmult_le_compat; lra.
Qed.

Lemma sum_exps : forall v m n h, (length v <= n)%nat -> (forall x, In (Some x) v -> flt x) -> row_max v = Some m ->
  (depth (order (map (fl_term emin prec fexp m) v)) <= h)%nat ->
  let s := fl_sum emin prec (order (map (fl_term emin prec fexp m) v)) in
  let S := sum_of (map (xterm m) v) in
  flt s /\ Rabs (s - S) <= sum_error u e eta n h * S.
Proof.
  intros v m n h Ln F M D s S. destruct (row_max_spec _ _ M) as [Im Mx].
  pose proof u_bounds as U.
  assert (S1 : 1 <= S) by (now apply xsum_ge_1).
  assert (L1 : (1 <= n)%nat) by (destruct v; [contradiction|simpl in Ln; lia]).
  set (ts := map (fl_term emin prec fexp m) v) in *.
  set (d := fun a => u / (1 - u) * wlog (1 - u) m a + (e * wterm (1 - u) m a + eta)).
  assert (Err : forall a, In a v -> flt (fl_term emin prec fexp m a) /\
                 Rabs (fl_term emin prec fexp m a - xterm m a) <= d a).
  { intros [x|] I; unfold d; simpl.
    { destruct (exp_sub_by x m (F x I) (F m Im) (Mx x I)) as [F1 E1]. split; [exact F1|].
      eapply Rle_trans; [exact E1|]. right. field. lra. }
    split; [apply float_0|]. rewrite Rminus_eq_0, Rabs_R0. lra. }
  destruct (order_ok ts) as [k P].
  assert (FL : List.Forall flt (leaves (order ts))).
  { apply Forall_forall. intros x X. eapply Permutation_in in X; [|exact P].
    apply in_app_or in X. destruct X as [X|X].
    { unfold ts in X. apply in_map_iff in X. destruct X as (a & <- & Ia). now apply Err. }
    apply repeat_spec in X. subst. apply float_0. }
  destruct (tree_error _ FL) as [Fs E]. split; [exact Fs|].
  rewrite (sum_of_perm _ _ P), (sum_of_perm _ _ (Permutation_map Rabs P)) in E.
  rewrite map_app, !sum_of_app, abs_zeros, !sum_of_zeros, !Rplus_0_r in E.
  destruct (sum_diff (fl_term emin prec fexp m) (xterm m) d v) as [D1 D2]; [intros; now apply Err|].
  fold ts in D1, D2. fold S in D1. rewrite xsum_abs in D2. fold S in D2.
  set (t := weight_error u e eta n).
  assert (T0 : 0 <= t) by (now apply weight_error_pos).
  assert (DT : sum_of (map d v) <= t * S).
  { unfold d. rewrite !sum_plus, !sum_mult, sum_const.
    pose proof (power_sum m v n Ln S1) as PS. fold S in PS.
    assert (S'1 : 1 <= sum_of (map (wterm (1 - u) m) v)).
    { eapply Rle_trans; [exact S1|]. unfold S. apply sum_le. intros [x|] I; simpl; [|lra].
      apply exp_mono. specialize (Mx x I). nra. }
    pose proof (entropy (1 - u) m v n Ln S'1) as EN.
    set (S' := sum_of (map (wterm (1 - u) m) v)) in *. pose proof (ln_INR_pos n L1) as L0.
    assert (C : 0 <= u / (1 - u)) by (apply Rmult_le_pos; [lra|left; apply Rinv_0_lt_compat; lra]).
    assert (u / (1 - u) * sum_of (map (wlog (1 - u) m) v) <= u / (1 - u) * (S' * ln (INR n))) by (now apply Rmult_le_compat_l).
    assert (X : S' * (u / (1 - u) * ln (INR n) + e) <= exp (u * ln (INR n)) * S * (u / (1 - u) * ln (INR n) + e)).
    { apply Rmult_le_compat_r; [|exact PS]. assert (0 <= u / (1 - u) * ln (INR n)) by (now apply Rmult_le_pos). lra. }
    assert (Y : INR (length v) * eta <= INR n * eta * S).
    { apply le_INR in Ln. pose proof (pos_INR (length v)).
      assert (INR (length v) * eta <= INR n * eta) by (apply Rmult_le_compat_r; lra).
      assert (0 <= INR n * eta) by (apply Rmult_le_pos; lra). nra. }
    unfold t, weight_error.
    replace ((exp (u * ln (INR n)) * (u / (1 - u) * ln (INR n) + e) + INR n * eta) * S)
      with (exp (u * ln (INR n)) * S * (u / (1 - u) * ln (INR n) + e) + INR n * eta * S) by ring.
    replace (S' * (u / (1 - u) * ln (INR n) + e)) with (u / (1 - u) * (S' * ln (INR n)) + e * S') in X by ring. lra. }
  pose proof (growth_pos u (depth (order ts)) ltac:(lra)) as G0.
  pose proof (growth_mono u _ _ ltac:(lra) D) as G1.
  pose proof (sum_abs_pos ts) as A0. fold s in E.
  assert (E' : Rabs (s - sum_of ts) <= growth u h * (S + t * S)).
  { eapply Rle_trans; [exact E|]. apply Rmult_le_compat; lra. }
  replace (s - S) with ((s - sum_of ts) + (sum_of ts - S)) by ring.
  eapply Rle_trans; [apply Rabs_triang|]. unfold sum_error. fold t.
  replace ((growth u h * (1 + t) + t) * S) with (growth u h * (S + t * S) + t * S) by ring. lra.
Qed.

Definition xlse (v : list (option R)) : R :=
  ln (sum_of (map (fun a => match a with Some x => exp x | None => 0 end) v)).

Lemma xlse_shift : forall v m, row_max v = Some m -> xlse v = ln (sum_of (map (xterm m) v)) + m.
Proof.
  intros v m M. destruct (row_max_spec _ _ M) as [Im Mx]. unfold xlse.
  replace (map (fun a => match a with Some x => exp x | None => 0 end) v)
    with (map (fun a => exp m * xterm m a) v).
  2:{ apply map_ext. intros [x|]; simpl; [|ring]. rewrite <- exp_plus. f_equal. ring. }
  assert (E : forall l, sum_of (map (fun a => exp m * xterm m a) l) = exp m * sum_of (map (xterm m) l)).
  { induction l as [|a l IH]; unfold sum_of in *; simpl; [ring|]. rewrite IH. ring. }
  rewrite E. pose proof (xsum_ge_1 m v Mx Im). rewrite ln_mult; [|apply exp_pos|lra].
  rewrite ln_exp. ring.
Qed.

Lemma log_error_pos : forall n h, (1 <= n)%nat -> sum_error u e eta n h < 1 -> 0 <= log_error u e eta n h.
Proof.
  intros n h N Q. unfold log_error. pose proof (sum_error_mono n n h h N (le_n _) (le_n _)).
  pose proof (of_relative_mono (sum_error u e eta n h) (sum_error u e eta n h) ltac:(lra) Q).
  assert (0 <= ln (INR n)).
  { apply le_INR in N. simpl in N. destruct N as [N|N]; [left; rewrite <- ln_1; apply ln_increasing; lra|rewrite <- N, ln_1; lra]. }
  assert (0 <= e * (ln (INR n) + of_relative (sum_error u e eta n h))) by (apply Rmult_le_pos; lra). lra.
Qed.

Lemma logsumexp_error : forall v n h, (length v <= n)%nat -> (forall x, In (Some x) v -> flt x) ->
  (exists x, In (Some x) v) -> (forall l, length l = length v -> (depth (order l) <= h)%nat) ->
  sum_error u e eta n h < 1 ->
  exists y, fl_logsumexp emin prec fexp flog order v = Some y /\ flt y /\
    Rabs (y - xlse v) <= log_error u e eta n h + u * (Rabs (xlse v) + log_error u e eta n h).
Proof.
  intros v n h Ln F [x0 I0] D Q. pose proof u_bounds as U.
  unfold fl_logsumexp. destruct (row_max v) as [m|] eqn:M.
  2:{ exfalso. eapply row_max_none; eauto. }
  destruct (row_max_spec _ _ M) as [Im Mx].
  eexists. split; [reflexivity|]. split; [apply fl_float|].
  destruct (sum_exps v m n h Ln F M) as [Fs E]. { apply D. now rewrite map_length. }
  set (s := fl_sum emin prec (order (map (fl_term emin prec fexp m) v))) in *.
  set (S := sum_of (map (xterm m) v)) in *.
  assert (S1 : 1 <= S) by (now apply xsum_ge_1).
  assert (L1 : (1 <= n)%nat) by (destruct v; [contradiction|simpl in Ln; lia]).
  destruct (sum_error_mono n n h h L1 (le_n _) (le_n _)) as [Q0 _].
  destruct (ln_perturbed (sum_error u e eta n h) S s) as [s0 L]; [lra|lra| |].
  { eapply Rle_trans; [exact E|]. apply Rmult_le_compat_r; lra. }
  destruct (log_ok s Fs s0) as [Fl A].
  rewrite (xlse_shift v m M). fold S.
  set (r := of_relative (sum_error u e eta n h)) in *.
  assert (S2 : S <= INR n).
  { eapply Rle_trans; [now apply xsum_le_n|]. now apply le_INR. }
  assert (lnS : 0 <= ln S <= ln (INR n)).
  { split. { rewrite <- ln_1. destruct S1 as [S1|S1]; [left; apply ln_increasing; lra|right; now rewrite <- S1]. }
    destruct S2 as [S2|S2]; [left; apply ln_increasing; lra|right; now rewrite S2]. }
  assert (lns : Rabs (ln s) <= ln (INR n) + r).
  { replace (ln s) with ((ln s - ln S) + ln S) by ring. eapply Rle_trans; [apply Rabs_triang|].
    rewrite (Rabs_pos_eq (ln S)) by lra. lra. }
  assert (B : Rabs (flog s - ln S) <= log_error u e eta n h).
  { unfold log_error. fold r. replace (flog s - ln S) with ((flog s - ln s) + (ln s - ln S)) by ring.
    eapply Rle_trans; [apply Rabs_triang|].
    assert (e * Rabs (ln s) <= e * (ln (INR n) + r)) by (now apply Rmult_le_compat_l). lra. }
  pose proof (fl_add (flog s) m Fl (F m Im)) as R.
  replace (fl (flog s + m) - (ln S + m)) with ((fl (flog s + m) - (flog s + m)) + (flog s - ln S)) by ring.
  eapply Rle_trans; [apply Rabs_triang|].
  assert (C : Rabs (flog s + m) <= Rabs (ln S + m) + log_error u e eta n h).
  { replace (flog s + m) with ((ln S + m) + (flog s - ln S)) by ring.
    eapply Rle_trans; [apply Rabs_triang|]. lra. }
  assert (u * Rabs (flog s + m) <= u * (Rabs (ln S + m) + log_error u e eta n h)) by (apply Rmult_le_compat_l; lra).
  lra.
Qed.

(** log sum exp moves no further than its arguments *)
Lemma sum_exp_pos : forall (l : list sample) f, l <> [] -> 0 < sum_of (map (fun s => exp (f s)) l).
Proof.
  intros l f. induction l as [|a l IH]; [congruence|]. intros _.
  change (0 < exp (f a) + sum_of (map (fun s => exp (f s)) l)).
  pose proof (exp_pos (f a)). destruct l as [|b l]; [unfold sum_of; simpl; lra|].
  assert (0 < sum_of (map (fun s => exp (f s)) (b :: l))) by (apply IH; discriminate). lra.
Qed.

Lemma lse_lipschitz : forall (l : list sample) f g c, l <> [] ->
  (forall s, In s l -> Rabs (f s - g s) <= c) ->
  Rabs (ln (sum_of (map (fun s => exp (f s)) l)) - ln (sum_of (map (fun s => exp (g s)) l))) <= c.
Proof.
  assert (W : forall (l : list sample) f g c, l <> [] -> (forall s, In s l -> f s <= g s + c) ->
     ln (sum_of (map (fun s => exp (f s)) l)) <= ln (sum_of (map (fun s => exp (g s)) l)) + c).
  { intros l f g c N H.
    assert (E : sum_of (map (fun s => exp (f s)) l) <= exp c * sum_of (map (fun s => exp (g s)) l)).
    { clear N. induction l as [|a l IH]; [unfold sum_of; simpl; lra|].
      change (exp (f a) + sum_of (map (fun s => exp (f s)) l) <= exp c * (exp (g a) + sum_of (map (fun s => exp (g s)) l))).
      assert (sum_of (map (fun s => exp (f s)) l) <= exp c * sum_of (map (fun s => exp (g s)) l))
        by (apply IH; intros; apply H; now right).
      assert (exp (f a) <= exp c * exp (g a)); [|lra].
      rewrite <- exp_plus. specialize (H a (or_introl eq_refl)).
      destruct (Rle_lt_or_eq_dec (f a) (c + g a)) as [X|X]; [lra|left; now apply exp_increasing|right; now rewrite X]. }
    pose proof (sum_exp_pos l f N). pose proof (sum_exp_pos l g N). pose proof (exp_pos c).
    rewrite <- (ln_exp c). rewrite <- ln_mult by assumption. rewrite Rmult_comm.
    destruct E as [E|E]; [left; now apply ln_increasing|right; now rewrite E]. }
  intros l f g c N H. apply Rabs_le. split.
  { assert (ln (sum_of (map (fun s => exp (g s)) l)) <= ln (sum_of (map (fun s => exp (f s)) l)) + c); [|lra].
    apply W; [exact N|]. intros s I. specialize (H s I). apply Rabs_le_inv in H. lra. }
  assert (ln (sum_of (map (fun s => exp (f s)) l)) <= ln (sum_of (map (fun s => exp (g s)) l)) + c); [|lra].
  apply W; [exact N|]. intros s I. specialize (H s I). apply Rabs_le_inv in H. lra.
Qed.

Lemma xlse_row : forall row,
  xlse (map (fl_log_prob emin prec) row) =
  ln (sum_of (map (fun s => exp (fl (s_lp s - s_ref s))) (kept row))).
Proof.
  intros row. unfold xlse. f_equal. induction row as [|s row IH]; [reflexivity|].
  unfold kept. cbn [map filter]. unfold fl_log_prob at 1. destruct (s_mask s).
  { change (exp (fl (s_lp s - s_ref s)) +
      sum_of (map (fun a => match a with Some x => exp x | None => 0 end) (map (fl_log_prob emin prec) row)) =
      exp (fl (s_lp s - s_ref s)) + sum_of (map (fun s => exp (fl (s_lp s - s_ref s))) (filter s_mask row))).
    rewrite IH. reflexivity. }
  change (0 + sum_of (map (fun a => match a with Some x => exp x | None => 0 end) (map (fl_log_prob emin prec) row)) =
      sum_of (map (fun s => exp (fl (s_lp s - s_ref s))) (filter s_mask row))).
  rewrite IH. unfold kept. ring.
Qed.

Lemma event_ok : forall N h W row, good_row emin prec N W row -> chains order N h ->
  sum_error u e eta N h < 1 ->
  exists y, fl_logsumexp emin prec fexp flog order (map (fl_log_prob emin prec) row) = Some y /\ flt y /\
    Rabs (y - exact_term row) <= event_error u e eta N h W (exact_term row).
Proof.
  intros N h W row (Ln & Ne & G) D Q. pose proof u_bounds as U.
  destruct (logsumexp_error (map (fl_log_prob emin prec) row) N h) as (y & Ey & Fy & B).
  { now rewrite map_length. }
  { intros x X. apply in_map_iff in X. destruct X as (s & E & _). unfold fl_log_prob in E.
    destruct (s_mask s); [|discriminate]. injection E as <-. apply fl_float. }
  { destruct (kept row) as [|s k] eqn:K; [congruence|].
    assert (I : In s (kept row)) by (rewrite K; now left). unfold kept in I. apply filter_In in I. destruct I as [I M].
    exists (fl (s_lp s - s_ref s)). apply in_map_iff. exists s. split; [|exact I]. unfold fl_log_prob. now rewrite M. }
  { intros l E. apply D. rewrite E, map_length. exact Ln. }
  { exact Q. }
  exists y. split; [exact Ey|]. split; [exact Fy|]. rewrite xlse_row in B.
  assert (L : Rabs (ln (sum_of (map (fun s => exp (fl (s_lp s - s_ref s))) (kept row))) - exact_term row) <= u * W).
  { unfold exact_term. apply (lse_lipschitz (kept row) (fun s => fl (s_lp s - s_ref s)) (fun s => s_lp s - s_ref s)).
    { exact Ne. }
    intros s I. unfold kept in I. apply filter_In in I. destruct I as [I M]. destruct (G s I M) as (F1 & F2 & B2).
    eapply Rle_trans; [now apply fl_sub|]. apply Rmult_le_compat_l; lra. }
  set (V := ln (sum_of (map (fun s => exp (fl (s_lp s - s_ref s))) (kept row)))) in *.
  unfold event_error. set (LE := log_error u e eta N h) in *.
  replace (y - exact_term row) with ((y - V) + (V - exact_term row)) by ring.
  eapply Rle_trans; [apply Rabs_triang|].
  assert (C : Rabs V <= Rabs (exact_term row) + u * W).
  { replace V with (exact_term row + (V - exact_term row)) by ring. eapply Rle_trans; [apply Rabs_triang|]. lra. }
  assert (u * (Rabs V + LE) <= u * (Rabs (exact_term row) + u * W + LE)) by (apply Rmult_le_compat_l; lra).
  lra.
Qed.

(** ** The whole sum *)

Definition lse_of (row : list sample) : option R :=
  fl_logsumexp emin prec fexp flog order (map (fl_log_prob emin prec) row).

Lemma all_some_ok : forall (P : list sample -> R -> Prop) b,
  (forall row, In row b -> exists y, lse_of row = Some y /\ P row y) ->
  exists ls, all_some (map lse_of b) = Some ls /\ Forall2 P b ls.
Proof.
  intros P. induction b as [|row b IH]; intros H. { exists []. split; [reflexivity|constructor]. }
  destruct (H row (or_introl eq_refl)) as (y & E & Py).
  destruct IH as (ls & El & Fl). { intros; apply H; now right. }
  exists (y :: ls). split; [|now constructor]. cbn [map all_some]. rewrite E, El. reflexivity.
Qed.

Lemma Forall2_len : forall {A B} (P : A -> B -> Prop) a b, Forall2 P a b -> length a = length b.
Proof. induction 1; simpl; congruence. Qed.

Lemma total_tree : forall (P : list sample -> R -> Prop) N h bs t0,
  chains order N h ->
  (forall b, In b bs -> (length b <= N)%nat) ->
  (forall b row, In b bs -> In row b -> exists y, lse_of row = Some y /\ P row y) ->
  (h <= depth t0)%nat ->
  exists t ls k, fl_total emin prec fexp flog order (fl_sum emin prec t0) bs = Some (fl_sum emin prec t) /\
    Forall2 P (concat bs) ls /\ Permutation (leaves t) (leaves t0 ++ ls ++ repeat 0 k) /\
    (depth t = length bs + depth t0)%nat.
Proof.
  intros P N h. induction bs as [|b bs IH]; intros t0 D Lb H Dt.
  { exists t0, [], 0%nat. split; [reflexivity|]. split; [constructor|]. split; [now rewrite app_nil_r|]. reflexivity. }
  destruct (all_some_ok P b) as (ls & El & Fl). { intros; apply (H b); [now left|assumption]. }
  destruct (order_ok ls) as [k Pk].
  destruct (IH (Node t0 (order ls))) as (t & ls' & k' & Et & Fl' & Pt & Dp).
  { exact D. } { intros; apply Lb; now right. } { intros; apply (H b0); [now right|assumption]. } { simpl. lia. }
  assert (Do : (depth (order ls) <= h)%nat).
  { apply D. rewrite <- (Forall2_len _ _ _ Fl). apply Lb. now left. }
  exists t, (ls ++ ls')%list, (k + k')%nat. split.
  { unfold fl_total in *. cbn [fold_left]. unfold fl_bucket at 2. unfold lse_of in El. rewrite El. exact Et. }
  split. { cbn [concat]. now apply Forall2_app. }
  split.
  { rewrite Pt. cbn [leaves]. rewrite <- !app_assoc. apply Permutation_app_head.
    rewrite repeat_app. rewrite Pk. rewrite <- !app_assoc. apply Permutation_app_head.
    rewrite !app_assoc. apply Permutation_app_tail. apply Permutation_app_comm. }
  rewrite Dp. cbn [depth length]. lia.
Qed.

Lemma sum_pairs : forall (f : list sample -> R) rows ls,
  Forall2 (fun row y => flt y /\ Rabs (y - exact_term row) <= f row) rows ls ->
  List.Forall flt ls /\
  Rabs (sum_of ls - sum_of (map exact_term rows)) <= sum_of (map f rows) /\
  sum_of (map Rabs ls) <= sum_of (map (fun row => Rabs (exact_term row) + f row) rows).
Proof.
  induction 1 as [|row y rows ls [F E] _ (IF & I1 & I2)].
  { split; [constructor|]. unfold sum_of. simpl. rewrite Rminus_eq_0, Rabs_R0. lra. }
  split; [now constructor|].
  unfold sum_of in *. cbn [map fold_right]. split.
  { match goal with |- Rabs ?x <= _ => replace x with ((y - exact_term row) +
      (fold_right Rplus 0 ls - fold_right Rplus 0 (map exact_term rows))) by ring end.
    eapply Rle_trans; [apply Rabs_triang|]. lra. }
  pose proof (Rabs_triang (y - exact_term row) (exact_term row)) as T.
  replace (y - exact_term row + exact_term row) with y in T by ring. lra.
Qed.

Lemma posterior_error : forall N h W bs log_prior log_constants rates,
  chains order N h ->
  (forall b, In b bs -> (length b <= N)%nat /\ forall row, In row b -> good_row emin prec N W row) ->
  flt log_prior -> flt log_constants -> flt rates ->
  sum_error u e eta N h < 1 ->
  exists y, fl_posterior emin prec fexp flog order log_prior log_constants rates bs = Some y /\
    Rabs (y - exact_posterior log_prior log_constants rates bs) <=
      sum_of (map (fun row => event_error u e eta N h W (exact_term row)) (concat bs)) +
      growth u (h + length bs + 2) *
        (Rabs log_prior + Rabs log_constants + Rabs rates +
         sum_of (map (fun row => Rabs (exact_term row) + event_error u e eta N h W (exact_term row)) (concat bs))).
Proof.
  intros N h W bs lp lc rates D G Fp Fc Fr Q. pose proof u_bounds as U.
  set (f := fun row => event_error u e eta N h W (exact_term row)).
  set (P := fun row y => flt y /\ Rabs (y - exact_term row) <= f row).
  (* a chain of h zeros in front keeps the depth above h *)
  set (pad := fix pad n := match n with O => Leaf lc | S n' => Node (pad n') (Leaf 0) end).
  assert (Ps : forall n, fl_sum emin prec (pad n) = lc).
  { induction n as [|n IHn]; [reflexivity|]. cbn [pad fl_sum]. rewrite IHn, Rplus_0_r.
    apply round_generic; [apply valid_rnd_N|exact Fc]. }
  assert (Pd : forall n, depth (pad n) = n).
  { induction n as [|n IHn]; [reflexivity|]. cbn [pad depth]. rewrite IHn. lia. }
  assert (Pl : forall n, leaves (pad n) = lc :: repeat 0 n).
  { induction n as [|n IHn]; [reflexivity|]. cbn [pad leaves]. rewrite IHn. cbn [app]. f_equal.
    change (0 :: repeat 0 n) with (repeat 0 (S n)). replace (S n) with (n + 1)%nat by lia. rewrite repeat_app. reflexivity. }
  destruct (total_tree P N h bs (pad h)) as (t & ls & k & Et & Fl & Pt & Dt).
  { exact D. } { intros b I. now apply G. }
  { intros b row Ib Ir. destruct (G b Ib) as [_ Gr].
    destruct (event_ok N h W row (Gr row Ir) D Q) as (y & Ey & Fy & By). exists y. split; [exact Ey|]. split; assumption. }
  { rewrite Pd. lia. }
  rewrite Ps in Et. rewrite Pd in Dt. rewrite Pl in Pt.
  unfold fl_posterior. rewrite Et. eexists. split; [reflexivity|].
  destruct (sum_pairs f _ _ Fl) as (Ff & S1 & S2).
  set (T := Node (Leaf lp) (Node t (Leaf (- rates)))).
  assert (LP : Permutation (leaves T) (lp :: - rates :: lc :: ls ++ repeat 0 (h + k))).
  { unfold T. cbn [leaves app]. apply perm_skip. rewrite Permutation_app_comm. cbn [app]. apply perm_skip.
    rewrite Pt. cbn [app]. apply perm_skip. rewrite repeat_app. 
    rewrite !app_assoc. apply Permutation_app_tail. apply Permutation_app_comm. }
  assert (FT : List.Forall flt (leaves T)).
  { apply Forall_forall. intros x X. eapply Permutation_in in X; [|exact LP].
    destruct X as [<-|[<-|[<-|X]]]; [exact Fp|now apply float_opp|exact Fc|].
    apply in_app_or in X. destruct X as [X|X]; [rewrite Forall_forall in Ff; now apply Ff|].
    apply repeat_spec in X. subst. apply float_0. }
  destruct (tree_error T FT) as [_ E].
  rewrite (sum_of_perm _ _ LP), (sum_of_perm _ _ (Permutation_map Rabs LP)) in E.
  unfold T in E at 1. cbn [fl_sum] in E. unfold Rminus at 2 in E || idtac.
  change (fl_sum emin prec t + - rates) with (fl_sum emin prec t - rates) in E.
  set (y := fl (lp + fl (fl_sum emin prec t - rates))) in *.
  assert (X1 : sum_of (lp :: - rates :: lc :: ls ++ repeat 0 (h + k)) = lp - rates + lc + sum_of ls).
  { change (lp + (- rates + (lc + sum_of (ls ++ repeat 0 (h + k)))) = lp - rates + lc + sum_of ls).
    rewrite sum_of_app, sum_of_zeros. ring. }
  assert (X2 : sum_of (map Rabs (lp :: - rates :: lc :: ls ++ repeat 0 (h + k))) =
     Rabs lp + Rabs lc + Rabs rates + sum_of (map Rabs ls)).
  { cbn [map]. rewrite map_app, abs_zeros, Rabs_Ropp.
    change (Rabs lp + (Rabs rates + (Rabs lc + sum_of (map Rabs ls ++ repeat 0 (h + k)))) =
      Rabs lp + Rabs lc + Rabs rates + sum_of (map Rabs ls)).
    rewrite sum_of_app, sum_of_zeros. ring. }
  rewrite X1, X2 in E.
  assert (DT : depth T = (h + length bs + 2)%nat).
  { unfold T. cbn [depth]. lia. }
  rewrite DT in E. unfold exact_posterior.
  match goal with |- Rabs ?x <= _ => replace x with ((y - (lp - rates + lc + sum_of ls)) +
     (sum_of ls - sum_of (map exact_term (concat bs)))) by ring end.
  eapply Rle_trans; [apply Rabs_triang|].
  pose proof (growth_pos u (h + length bs + 2) ltac:(lra)) as G0.
  assert (growth u (h + length bs + 2) * (Rabs lp + Rabs lc + Rabs rates + sum_of (map Rabs ls)) <=
    growth u (h + length bs + 2) * (Rabs lp + Rabs lc + Rabs rates +
      sum_of (map (fun row => Rabs (exact_term row) + f row) (concat bs)))) by (apply Rmult_le_compat_l; lra).
  unfold f in *. lra.
Qed.

(** ** -inf *)

Lemma all_some_none : forall {A} (l : list (option A)), all_some l = None <-> In None l.
Proof.
  induction l as [|[a|] l IH]; simpl. { split; [discriminate|contradiction]. }
  { destruct (all_some l). { split; [discriminate|]. intros [X|X]; [discriminate|]. apply IH in X. discriminate. }
    split; [intros _; right; now apply IH|reflexivity]. }
  split; [now left|reflexivity].
Qed.

Lemma lse_none : forall row, lse_of row = None <-> kept row = [].
Proof.
  intros row. unfold lse_of, fl_logsumexp. destruct (row_max (map (fl_log_prob emin prec) row)) as [m|] eqn:M.
  { split; [discriminate|]. intros K. exfalso. destruct (row_max_spec _ _ M) as [I _].
    apply in_map_iff in I. destruct I as (s & E & I). unfold fl_log_prob in E. destruct (s_mask s) eqn:Ms; [|discriminate].
    assert (X : In s (kept row)) by (unfold kept; apply filter_In; split; assumption). rewrite K in X. contradiction. }
  split; [intros _|reflexivity]. destruct (kept row) as [|s k] eqn:K; [reflexivity|].
  exfalso. assert (X : In s (kept row)) by (rewrite K; now left). unfold kept in X. apply filter_In in X.
  destruct X as [X Ms]. apply (row_max_none _ M (fl (s_lp s - s_ref s))). apply in_map_iff. exists s.
  split; [|exact X]. unfold fl_log_prob. now rewrite Ms.
Qed.

Lemma bucket_none : forall b, fl_bucket emin prec fexp flog order b = None <-> exists row, In row b /\ kept row = [].
Proof.
  intros b. unfold fl_bucket. change (fun row => fl_logsumexp emin prec fexp flog order (map (fl_log_prob emin prec) row)) with lse_of.
  destruct (all_some (map lse_of b)) as [ls|] eqn:A.
  { split; [discriminate|]. intros (row & I & K). apply lse_none in K.
    assert (X : In None (map lse_of b)) by (rewrite <- K; now apply in_map). apply all_some_none in X. congruence. }
  split; [intros _|reflexivity]. apply all_some_none in A. apply in_map_iff in A. destruct A as (row & E & I).
  exists row. split; [exact I|]. now apply lse_none.
Qed.

Lemma total_none : forall bs acc,
  fold_left (fun acc b => match acc, fl_bucket emin prec fexp flog order b with
    | Some t, Some s => Some (fl (t + s)) | _, _ => None end) bs acc = None <->
  acc = None \/ exists row, In row (concat bs) /\ kept row = [].
Proof.
  induction bs as [|b bs IH]; intros acc; cbn [fold_left concat].
  { split; [now left|]. intros [H|(row & I & _)]; [exact H|contradiction]. }
  rewrite IH. split.
  { intros [H|(row & I & K)].
    { destruct acc as [t|]; [|now left]. destruct (fl_bucket emin prec fexp flog order b) eqn:B; [discriminate|].
      apply bucket_none in B. destruct B as (row & I & K). right. exists row. split; [apply in_or_app; now left|exact K]. }
    right. exists row. split; [apply in_or_app; now right|exact K]. }
  intros [->|(row & I & K)]; [now left|]. apply in_app_or in I. destruct I as [I|I].
  { left. assert (B : fl_bucket emin prec fexp flog order b = None) by (apply bucket_none; eauto).
    rewrite B. now destruct acc. }
  right. eauto.
Qed.

Lemma posterior_none : forall lp lc rates bs,
  fl_posterior emin prec fexp flog order lp lc rates bs = None <-> exists row, In row (concat bs) /\ kept row = [].
Proof.
  intros lp lc rates bs. unfold fl_posterior, fl_total.
  destruct (fold_left _ bs (Some lc)) as [t|] eqn:E.
  { split; [discriminate|]. intros H. exfalso. 
    assert (X : Some t = None) by (rewrite <- E; apply total_none; now right). discriminate. }
  split; [intros _|reflexivity]. apply total_none in E. destruct E as [E|E]; [discriminate|exact E].
Qed.

(** ** logsubexp *)

Lemma logsubexp_error : forall a b, flt a -> flt b -> b < a ->
  (u + e + eta) / (1 - exp (b - a)) < 1 ->
  exists y, fl_logsubexp emin prec fexp flog1p a b = Num y /\
    let r := of_relative ((u + e + eta) / (1 - exp (b - a))) in
    let F := r + e * (Rabs (ln (1 - exp (b - a))) + r) + eta in
    Rabs (y - ln (exp a - exp b)) <= F + u * (Rabs (ln (exp a - exp b)) + F).
Proof.
  intros a b Fa Fb L Q. pose proof u_bounds as U. pose proof tau_pos as T.
  destruct (exp_sub b a Fb Fa (Rlt_le _ _ L)) as [Fe E].
  set (ex := fexp (fl (b - a))) in *. set (S := 1 - exp (b - a)) in *.
  assert (S0 : 0 < S). { unfold S. rewrite <- exp_0. assert (exp (b - a) < exp 0) by (apply exp_increasing; lra). lra. }
  destruct (ln_perturbed ((u + e + eta) / S) S (1 - ex)) as [P D].
  { exact S0. } { split; [apply Rlt_le, Rdiv_lt_0_compat; assumption|exact Q]. }
  { unfold S. replace (1 - ex - (1 - exp (b - a))) with (- (ex - exp (b - a))) by ring. rewrite Rabs_Ropp.
    fold S. replace ((u + e + eta) / S * S) with (u + e + eta) by (field; lra). exact E. }
  assert (X : ln (exp a - exp b) = a + ln S).
  { unfold S. replace (exp a - exp b) with (exp a * (1 - exp (b - a))).
    { rewrite ln_mult; [now rewrite ln_exp|apply exp_pos|exact S0]. }
    rewrite Rmult_minus_distr_l, <- exp_plus. replace (a + (b - a)) with b by ring. ring. }
  unfold fl_logsubexp, fl_log1p. fold ex. rewrite Rcompare_Lt by lra.
  eexists. split; [reflexivity|]. cbv zeta. rewrite X.
  destruct (log1p_ok (- ex)) as [Fl A]. { now apply float_opp. } { lra. }
  cbv beta in A. replace (1 + - ex) with (1 - ex) in A by ring.
  set (r := of_relative ((u + e + eta) / S)) in *.
  set (F := r + e * (Rabs (ln S) + r) + eta).
  assert (B : Rabs (flog1p (- ex) - ln S) <= F).
  { unfold F. replace (flog1p (- ex) - ln S) with ((flog1p (- ex) - ln (1 - ex)) + (ln (1 - ex) - ln S)) by ring.
    eapply Rle_trans; [apply Rabs_triang|].
    assert (Rabs (ln (1 - ex)) <= Rabs (ln S) + r).
    { replace (ln (1 - ex)) with (ln S + (ln (1 - ex) - ln S)) by ring. eapply Rle_trans; [apply Rabs_triang|]. lra. }
    assert (e * Rabs (ln (1 - ex)) <= e * (Rabs (ln S) + r)) by (now apply Rmult_le_compat_l). lra. }
  pose proof (fl_add a _ Fa Fl) as R.
  set (y := flog1p (- ex)) in *.
  replace (fl (a + y) - (a + ln S)) with ((fl (a + y) - (a + y)) + (y - ln S)) by ring.
  eapply Rle_trans; [apply Rabs_triang|].
  assert (C : Rabs (a + y) <= Rabs (a + ln S) + F).
  { replace (a + y) with ((a + ln S) + (y - ln S)) by ring. eapply Rle_trans; [apply Rabs_triang|]. lra. }
  assert (u * Rabs (a + y) <= u * (Rabs (a + ln S) + F)) by (apply Rmult_le_compat_l; lra). lra.
Qed.

End Rounding.

(** ** Correctly rounded exp *)

Section Correct.

Variables emin prec : Z.
Context {Hprec : Prec_gt_0 prec}.
Hypothesis Hemin : (emin <= - prec - 1)%Z.

Notation flt := (is_float emin prec).
Notation fl := (fl emin prec).

Lemma power_float : forall k, (emin <= k)%Z -> flt (bpow radix2 k).
Proof.
  intros k H. apply generic_format_bpow. unfold FLT_exp. unfold Prec_gt_0 in Hprec. lia.
Qed.

Lemma float_1 : flt 1.
Proof. change 1 with (bpow radix2 0). apply power_float. unfold Prec_gt_0 in Hprec. lia. Qed.

Lemma fl_mono : forall x y, x <= y -> fl x <= fl y.
Proof. intros x y H. apply round_le; [apply FLT_exp_valid; exact Hprec|apply valid_rnd_N|exact H]. Qed.

Lemma fl_id : forall x, flt x -> fl x = x.
Proof. intros x H. apply round_generic; [apply valid_rnd_N|exact H]. Qed.

Lemma near_one : forall x, 1 - bpow radix2 (- prec - 1) < x <= 1 -> fl x = 1.
Proof.
  intros x [L M]. apply Rle_antisym.
  { rewrite <- (fl_id 1 float_1). now apply fl_mono. }
  assert (V : Valid_exp (FLT_exp emin prec)) by (apply FLT_exp_valid; exact Hprec).
  unfold Model_Rounding.fl. apply round_N_ge_midp; [exact V|exact float_1|].
  change 1 with (bpow radix2 0) at 2. rewrite pred_bpow.
  assert (E : FLT_exp emin prec 0 = (- prec)%Z) by (unfold FLT_exp; unfold Prec_gt_0 in Hprec; lia).
  rewrite E. replace (- prec - 1)%Z with (- prec + -1)%Z in L by ring.
  rewrite bpow_plus in L. simpl (bpow radix2 (-1)) in L. change (IZR (Z.pow_pos 2 1)) with 2 in L.
  simpl (bpow radix2 0). lra.
Qed.

Lemma logsubexp_cancels : forall flog1p a b, flt a -> flt b -> b <= a ->
  a - b <= bpow radix2 (- prec - 1) ->
  fl_logsubexp emin prec (fun x => fl (exp x)) flog1p a b = MinusInf.
Proof.
  intros flog1p a b Fa Fb L D. unfold fl_logsubexp, fl_log1p.
  set (d := fl (b - a)).
  assert (D1 : d <= 0). { unfold d. rewrite <- (fl_id 0 (float_0 emin prec)). apply fl_mono. lra. }
  assert (D2 : - bpow radix2 (- prec - 1) <= d).
  { unfold d. rewrite <- (fl_id (- bpow radix2 (- prec - 1))).
    { apply fl_mono. lra. } apply float_opp. now apply power_float. }
  assert (E : fl (exp d) = 1).
  { apply near_one. split.
    { destruct D1 as [D1|D1].
      { pose proof (exp_ineq1 d ltac:(lra)). lra. }
      rewrite D1, exp_0. pose proof (bpow_gt_0 radix2 (- prec - 1)). lra. }
    rewrite <- exp_0. destruct D1 as [D1|D1]; [left; now apply exp_increasing|rewrite D1; lra]. }
  rewrite E, Rcompare_Eq by lra. reflexivity.
Qed.

Lemma logsubexp_not_positive : forall flog1p a b, flt a -> flt b -> a <= b ->
  forall y, fl_logsubexp emin prec (fun x => fl (exp x)) flog1p a b <> Num y.
Proof.
  intros flog1p a b Fa Fb L y. unfold fl_logsubexp, fl_log1p.
  set (d := fl (b - a)).
  assert (D1 : 0 <= d). { unfold d. rewrite <- (fl_id 0 (float_0 emin prec)). apply fl_mono. lra. }
  assert (E : 1 <= fl (exp d)).
  { rewrite <- (fl_id 1 float_1). apply fl_mono. rewrite <- exp_0. destruct D1 as [D1|D1]; [left; now apply exp_increasing|rewrite D1; lra]. }
  destruct E as [E|E].
  { rewrite Rcompare_Gt by lra. discriminate. }
  rewrite <- E, Rcompare_Eq by lra. discriminate.
Qed.

Lemma correct_accurate : forall (dom : R -> Prop) f,
  accurate emin prec (unit_roundoff prec) (/ 2 * bpow radix2 emin) dom f (fun x => fl (f x)).
Proof. intros dom f x _ _. split; [now apply fl_float|now apply fl_err]. Qed.

End Correct.

(** ** Numbers *)

Lemma growth_le : forall u h, 0 <= u -> INR h * u < 1 -> growth u h <= of_relative (INR h * u).
Proof.
  intros u h Hu. induction h as [|h IH]; intros H.
  { unfold growth, of_relative. simpl. lra. }
  rewrite S_INR in *. pose proof (pos_INR h) as P. set (x := INR h * u) in *.
  assert (X : 0 <= x) by (unfold x; now apply Rmult_le_pos).
  assert (I : growth u h <= of_relative x) by (apply IH; unfold x; nra).
  replace ((INR h + 1) * u) with (x + u) in * by (unfold x; ring).
  replace (growth u (S h)) with ((1 + u) * (1 + growth u h) - 1) by (unfold growth; simpl; ring).
  unfold of_relative in *.
  assert (1 + growth u h <= 1 / (1 - x)).
  { replace (1 / (1 - x)) with (1 + x / (1 - x)) by (field; lra). lra. }
  replace ((x + u) / (1 - (x + u))) with (1 / (1 - (x + u)) - 1) by (field; lra).
  assert ((1 + u) * (1 + growth u h) <= 1 / (1 - (x + u))); [|lra].
  apply Rle_trans with ((1 + u) * (1 / (1 - x))). { apply Rmult_le_compat_l; lra. }
  apply Rmult_le_reg_r with ((1 - x) * (1 - (x + u))); [apply Rmult_lt_0_compat; lra|].
  replace ((1 + u) * (1 / (1 - x)) * ((1 - x) * (1 - (x + u)))) with ((1 + u) * (1 - (x + u))) by (field; lra).
  replace (1 / (1 - (x + u)) * ((1 - x) * (1 - (x + u)))) with (1 - x) by (field; lra). nra.
Qed.

Lemma ln_le_mono : forall a b, 0 < a -> a <= b -> ln a <= ln b.
Proof. intros a b A [H|H]; [left; now apply ln_increasing|right; now rewrite H]. Qed.

Lemma exp_le_inv : forall x, x < 1 -> exp x <= / (1 - x).
Proof.
  intros x H. pose proof (exp_ineq1_le (- x)) as E. rewrite exp_Ropp in E. pose proof (exp_pos x).
  rewrite <- (Rinv_inv (exp x)). apply Rinv_le_contravar; lra.
Qed.

Lemma weight_error_le : forall u e eta n l, 0 <= u <= / 2 -> 0 <= e -> 0 <= ln (INR n) <= l -> u * l < 1 ->
  weight_error u e eta n <= / (1 - u * l) * (u / (1 - u) * l + e) + INR n * eta.
Proof.
  intros u e eta n l U E L Q. unfold weight_error. apply Rplus_le_compat_r.
  assert (C : 0 <= u / (1 - u)) by (apply Rmult_le_pos; [lra|left; apply Rinv_0_lt_compat; lra]).
  assert (0 <= u / (1 - u) * ln (INR n)) by (apply Rmult_le_pos; lra).
  apply Rmult_le_compat.
  { left; apply exp_pos. } { lra. }
  { apply Rle_trans with (exp (u * l)); [apply exp_mono; apply Rmult_le_compat_l; lra|]. now apply exp_le_inv. }
  apply Rplus_le_compat_r. apply Rmult_le_compat_l; lra.
Qed.

Lemma ln_2_le_1 : ln 2 <= 1.
Proof. rewrite <- (ln_exp 1). apply ln_le_mono; [lra|]. pose proof (exp_ineq1_le 1). lra. Qed.

Lemma weight_error_nonneg : forall u e eta n, 0 <= u <= / 2 -> 0 <= e -> 0 <= eta -> 0 <= ln (INR n) -> 0 <= weight_error u e eta n.
Proof.
  intros u e eta n U E T L. unfold weight_error.
  assert (C : 0 <= u / (1 - u)) by (apply Rmult_le_pos; [lra|left; apply Rinv_0_lt_compat; lra]).
  assert (0 <= u / (1 - u) * ln (INR n)) by (apply Rmult_le_pos; lra).
  pose proof (exp_pos (u * ln (INR n))). pose proof (pos_INR n).
  assert (0 <= INR n * eta) by (now apply Rmult_le_pos). nra.
Qed.

(** Single precision with bounds on the length of the row and of the chains *)
Lemma single_error :
  forall (W L : R) (N h l : nat) (g b : R),
  let e := bpow radix2 (-22) in let eta := bpow radix2 (-149) in 0 <= W ->
  INR h * / 16777216 < 1 -> 1 <= INR N <= 2 ^ l -> of_relative (INR h * / 16777216) <= g ->
  INR l <= 20 -> g <= / 1000 ->
  / (1 - (g * (1 + (INR l + 5) / 16700000) + (INR l + 5) / 16700000)) *
    (g * (1 + (INR l + 5) / 16700000) + (INR l + 5) / 16700000) + (INR l + 1) / 4194304 <= b * (1 - / 16777216) ->
  sum_error (unit_roundoff 24) e eta N h < 1 /\
  event_error (unit_roundoff 24) e eta N h W L <= b + bpow radix2 (-23) * (W + Rabs L).
Proof.
  intros W L N h l g b e eta W0 Hh HN Hg Hl Hg1 HB.
  assert (Eu : unit_roundoff 24 = / 16777216) by (unfold unit_roundoff; simpl; lra).
  assert (Ee' : e = / 4194304) by (unfold e; simpl; lra).
  assert (P20 : 2 ^ l <= 2 ^ 20).
  { apply Rle_pow; [lra|]. apply INR_le. replace (INR 20) with 20 by (rewrite INR_IZR_INZ; reflexivity). exact Hl. }
  assert (P20' : 2 ^ 20 = 1048576) by (simpl; lra).
  assert (Et : 0 <= eta <= / 2 ^ 60).
  { split; [apply bpow_ge_0|]. unfold eta. apply Rle_trans with (bpow radix2 (-60)); [apply bpow_le; lia|simpl; lra]. }
  assert (P60 : / 2 ^ 60 <= / 1000000000000000000) by (apply Rinv_le_contravar; simpl; lra).
  pose proof (growth_le (/ 16777216) h ltac:(lra) Hh) as G1. pose proof (growth_pos (/ 16777216) h ltac:(lra)) as G0.
  assert (LN : 0 <= ln (INR N) <= INR l).
  { split. { rewrite <- ln_1. apply ln_le_mono; lra. }
    apply Rle_trans with (ln (2 ^ l)); [apply ln_le_mono; lra|]. rewrite ln_pow by lra.
    pose proof ln_2_le_1. pose proof (pos_INR l). nra. }
  pose proof (pos_INR l) as L0.
  assert (WE : 0 <= weight_error (/ 16777216) e eta N <= (INR l + 5) / 16700000).
  { split; [apply weight_error_nonneg; lra|].
    eapply Rle_trans; [apply weight_error_le with (l := INR l); lra|]. rewrite Ee'.
    assert (I : / (1 - / 16777216 * INR l) <= / (1 - / 16777216 * 20)) by (apply Rinv_le_contravar; lra).
    assert (I2 : / (1 - / 16777216 * 20) <= 1 + / 500000) by lra.
    assert (0 <= / (1 - / 16777216 * INR l)) by (left; apply Rinv_0_lt_compat; lra).
    assert (K : / 16777216 / (1 - / 16777216) * INR l + / 4194304 <= (INR l + 4) / 16777215) by lra.
    assert (K0 : 0 <= / 16777216 / (1 - / 16777216) * INR l + / 4194304) by lra.
    assert (K2 : / (1 - / 16777216 * INR l) * (/ 16777216 / (1 - / 16777216) * INR l + / 4194304) <=
            (1 + / 500000) * ((INR l + 4) / 16777215)) by (apply Rmult_le_compat; lra).
    assert (K3 : INR N * eta <= 1048576 * / 1000000000000000000) by (apply Rmult_le_compat; lra).
    lra. }
  set (w := (INR l + 5) / 16700000) in *.
  assert (W1 : 0 <= w <= / 100000) by (unfold w; lra).
  assert (SE : 0 <= sum_error (unit_roundoff 24) e eta N h <= g * (1 + w) + w).
  { unfold sum_error. rewrite Eu. set (we := weight_error _ _ _ _) in *. set (gr := growth _ _) in *.
    clearbody we gr. split; [nra|]. assert (gr * (1 + we) <= g * (1 + w)) by (apply Rmult_le_compat; lra). lra. }
  assert (SG : 0 <= g * (1 + w) + w <= / 500) by nra.
  set (q := g * (1 + w) + w) in *.
  split; [lra|].
  pose proof (of_relative_mono (sum_error (unit_roundoff 24) e eta N h) q SE ltac:(lra)) as R.
  assert (Rq : of_relative q = / (1 - q) * q) by (unfold of_relative; field; lra).
  assert (RQ : / (1 - q) * q <= / 400).
  { assert (/ (1 - q) <= / (1 - / 500)) by (apply Rinv_le_contravar; lra).
    assert (0 <= / (1 - q)) by (left; apply Rinv_0_lt_compat; lra).
    apply Rle_trans with (/ (1 - / 500) * / 500); [apply Rmult_le_compat; lra|lra]. }
  assert (LE : 0 <= log_error (unit_roundoff 24) e eta N h <= / (1 - q) * q + (INR l + 1) / 4194304).
  { unfold log_error. rewrite Ee' in *. set (r := of_relative (sum_error _ _ _ _ _)) in *. clearbody r. lra. }
  unfold event_error. rewrite Eu in *. set (le := log_error _ _ _ _ _) in *. clearbody le.
  pose proof (Rabs_pos (L)) as A. replace (bpow radix2 (-23)) with (/ 8388608) by (simpl; lra).
  set (a := Rabs (L)) in *. clearbody a.
  assert (le <= b * (1 - / 16777216)) by lra. 
  assert (0 <= b) by lra.
  assert (le * (1 + / 16777216) <= b * (1 - / 16777216) * (1 + / 16777216)) by (apply Rmult_le_compat_r; lra). lra.
Qed.

Lemma single_event :
  forall (fexp flog : R -> R) (order : list R -> tree) (W : R) (row : list sample) (N h l : nat) (g b : R),
  let e := bpow radix2 (-22) in let eta := bpow radix2 (-149) in
  accurate (-149) 24 e eta (fun x => x <= 0) exp fexp ->
  accurate (-149) 24 e eta (fun x => 0 < x) ln flog ->
  adds_up order -> chains order N h -> good_row (-149) 24 N W row ->
  INR h * / 16777216 < 1 -> 1 <= INR N <= 2 ^ l -> of_relative (INR h * / 16777216) <= g ->
  INR l <= 20 -> g <= / 1000 ->
  / (1 - (g * (1 + (INR l + 5) / 16700000) + (INR l + 5) / 16700000)) *
    (g * (1 + (INR l + 5) / 16700000) + (INR l + 5) / 16700000) + (INR l + 1) / 4194304 <= b * (1 - / 16777216) ->
  exists y, fl_logsumexp (-149) 24 fexp flog order (map (fl_log_prob (-149) 24) row) = Some y /\
    Rabs (y - exact_term row) <= b + bpow radix2 (-23) * (W + Rabs (exact_term row)).
Proof.
  intros fexp flog order W row N h l g b e eta Ee El Ho Hc G Hh HN Hg Hl Hg1 HB.
  assert (W0 : 0 <= W).
  { destruct G as (_ & Ne & GW). destruct (kept row) as [|s k] eqn:K; [congruence|].
    assert (I : In s (kept row)) by (rewrite K; now left). unfold kept in I. apply filter_In in I.
    destruct I as [I M]. destruct (GW s I M) as (_ & _ & H). pose proof (Rabs_pos (s_lp s - s_ref s)). lra. }
  destruct (single_error W (exact_term row) N h l g b W0 Hh HN Hg Hl Hg1 HB) as [Q B].
  fold e eta in Q, B.
  destruct (@event_ok (-149) 24 ltac:(reflexivity) e eta fexp flog order) with (N := N) (h := h) (W := W) (row := row)
    as (y & Ey & _ & B').
  { apply bpow_ge_0. } { apply bpow_ge_0. } { exact Ee. } { exact El. } { exact Ho. } { exact G. } { exact Hc. } { exact Q. }
  exists y. split; [exact Ey|]. eapply Rle_trans; [exact B'|exact B].
Qed.
