From Coq Require Import Reals Lra Lia List Bool.
From Coquelicot Require Import Coquelicot.
From Verif Require Import Model_X Spec_X Proofs_X Proofs_Transform Spec_Density Proofs_Powerlaw Model_Gauss Proofs_Gauss.
From Verif Require Import Model_Mass Proofs_Mass Proofs_MassGrid Proofs_Integral Model_Spin.
Import ListNotations.
Open Scope R_scope.

(** ** C39 *)
Lemma to_concentrations_fin mean var loc scale : 0 < scale -> var <> 0 ->
  let s := ((mean - loc) * (mean - (loc + scale)) + var) / (scale * var) in
  beta_to_concentrations mean var loc scale = (Fin (- (mean - loc) * s), Fin ((mean - (loc + scale)) * s)).
Proof.
  intros Hs Hv s. unfold beta_to_concentrations. rewrite xdiv_fin.
  - rewrite !xmul_fin. reflexivity.
  - intros H. apply Rmult_integral in H. lra.
Qed.
Lemma to_mean_variance_fin a b loc scale : a + b <> 0 -> a + b + 1 <> 0 ->
  beta_to_mean_variance a b loc scale
  = (Fin (loc + scale * (a / (a + b))), Fin (scale * scale * (a * b / ((a + b) * (a + b) * (a + b + 1))))).
Proof.
  intros H1 H2. unfold beta_to_mean_variance.
  assert (H3 : (a + b) * (a + b) * (a + b + 1) <> 0).
  { intros H. apply Rmult_integral in H as [H|H]; auto. apply Rmult_integral in H. tauto. }
  rewrite !xdiv_fin by auto. reflexivity.
Qed.

Theorem beta_back mean var loc scale : 0 < scale -> loc < mean < loc + scale -> var <> 0 ->
  var <> (mean - loc) * (loc + scale - mean) ->
  exists a b, beta_to_concentrations mean var loc scale = (Fin a, Fin b)
    /\ beta_to_mean_variance a b loc scale = (Fin mean, Fin var).
Proof.
  intros Hs Hm Hv Hne. rewrite to_concentrations_fin by auto. do 2 eexists. split; [reflexivity|].
  assert (HN : (mean - loc) * (mean - (loc + scale)) + var <> 0) by nra.
  assert (HP : (mean - loc) * (loc + scale - mean) <> 0).
  { assert (0 < (mean - loc) * (loc + scale - mean)) by (apply Rmult_lt_0_compat; lra). lra. }
  set (s := ((mean - loc) * (mean - (loc + scale)) + var) / (scale * var)).
  assert (Hss : s <> 0).
  { unfold s. intros E. apply HN. unfold Rdiv in E. apply Rmult_integral in E as [E|E]; auto.
    exfalso. revert E. apply Rinv_neq_0_compat. intros Z. apply Rmult_integral in Z. lra. }
  assert (ES : - (mean - loc) * s + (mean - (loc + scale)) * s = - scale * s) by ring.
  assert (ES1 : - scale * s + 1 = (mean - loc) * (loc + scale - mean) / var) by (unfold s; field; lra).
  rewrite to_mean_variance_fin.
  - f_equal; f_equal.
    + rewrite ES. field. lra.
    + rewrite ES, ES1. field. repeat split; auto; lra.
  - rewrite ES. intros E. apply Rmult_integral in E. lra.
  - rewrite ES, ES1. intros E. unfold Rdiv in E. apply Rmult_integral in E as [E|E]; auto.
    revert E. now apply Rinv_neq_0_compat.
Qed.

Theorem beta_forth a b loc scale : 0 < a -> 0 < b -> 0 < scale ->
  exists m v, beta_to_mean_variance a b loc scale = (Fin m, Fin v)
    /\ loc < m < loc + scale /\ 0 < v < (m - loc) * (loc + scale - m)
    /\ beta_to_concentrations m v loc scale = (Fin a, Fin b).
Proof.
  intros Ha Hb Hs. rewrite to_mean_variance_fin by lra. do 2 eexists. split; [reflexivity|].
  assert (P : 0 < a / (a + b) < 1).
  { split; [apply Rdiv_lt_0_compat; lra|]. apply Rlt_div_l; lra. }
  set (m := loc + scale * (a / (a + b))).
  assert (Em : (m - loc) * (loc + scale - m) = scale * scale * (a * b / ((a + b) * (a + b)))) by (unfold m; field; lra).
  assert (Q : 0 < a * b / ((a + b) * (a + b))) by (apply Rdiv_lt_0_compat; nra).
  set (v := scale * scale * (a * b / ((a + b) * (a + b) * (a + b + 1)))).
  assert (Ev : v = scale * scale * (a * b / ((a + b) * (a + b))) / (a + b + 1)) by (unfold v; field; lra).
  assert (T : 0 < scale * scale * (a * b / ((a + b) * (a + b)))) by (apply Rmult_lt_0_compat; nra).
  assert (Hv : 0 < v) by (rewrite Ev; apply Rdiv_lt_0_compat; lra).
  split; [|split].
  - unfold m. split; nra.
  - split; auto. rewrite Em, Ev. apply Rlt_div_l; [lra|]. nra.
  - rewrite to_concentrations_fin by lra.
    replace (((m - loc) * (m - (loc + scale)) + v) / (scale * v)) with (- (a + b) / scale).
    + f_equal; f_equal; unfold m; field; lra.
    + replace ((m - loc) * (m - (loc + scale))) with (- ((a + b + 1) * v)).
      * field. lra.
      * transitivity (- ((m - loc) * (loc + scale - m))); [|ring]. rewrite Em, Ev. field. lra.
Qed.

Theorem beta_positive mean var loc scale : 0 < scale -> loc < mean < loc + scale -> 0 < var ->
  exists a b, beta_to_concentrations mean var loc scale = (Fin a, Fin b)
    /\ (0 < a <-> var < (mean - loc) * (loc + scale - mean))
    /\ (0 < b <-> var < (mean - loc) * (loc + scale - mean)).
Proof.
  intros Hs Hm Hv. rewrite to_concentrations_fin by lra. do 2 eexists. split; [reflexivity|].
  set (s := ((mean - loc) * (mean - (loc + scale)) + var) / (scale * var)).
  assert (K : s < 0 <-> var < (mean - loc) * (loc + scale - mean)).
  { assert (0 < scale * var) by now apply Rmult_lt_0_compat. unfold s. split; intros H0.
    - apply Rlt_div_l in H0; nra.
    - apply Rlt_div_l; nra. }
  split; rewrite <- K; split; intros; nra.
Qed.

Theorem beta_boundary mean loc scale : 0 < scale -> loc < mean < loc + scale ->
  beta_to_concentrations mean ((mean - loc) * (loc + scale - mean)) loc scale = (Fin 0, Fin 0)
  /\ beta_to_mean_variance 0 0 loc scale = (NaN, NaN).
Proof.
  intros Hs Hm. split.
  - rewrite to_concentrations_fin; auto.
    + f_equal; f_equal; unfold Rdiv; ring.
    + assert (0 < (mean - loc) * (loc + scale - mean)) by (apply Rmult_lt_0_compat; lra). lra.
  - unfold beta_to_mean_variance. rewrite !Rplus_0_l, !Rmult_0_l. unfold xdiv, xinf_times.
    destruct (Req_EM_T 0 0); [|lra]. destruct (Rlt_dec 0 0); [lra|]. reflexivity.
Qed.

Theorem beta_constructors_agree mean var : var <> 0 ->
  beta_from_mean_var mean var = beta_to_concentrations mean var 0 1.
Proof.
  intros Hv. rewrite to_concentrations_fin by lra. unfold beta_from_mean_var. rewrite !xdiv_fin by auto.
  f_equal; f_equal; field; lra.
Qed.

(** ** C40 *)
Theorem check_exact mean var amin bmin : 0 < var ->
  exists a b, beta_from_mean_var mean var = (Fin a, Fin b)
    /\ (check_min_concentration mean var amin bmin = true <-> amin < a /\ bmin < b).
Proof.
  intros Hv. unfold beta_from_mean_var. rewrite !xdiv_fin by lra. do 2 eexists. split; [reflexivity|].
  unfold check_min_concentration. rewrite andb_true_iff.
  rewrite <- (Rlt_div_r amin _ var) by lra. rewrite <- (Rlt_div_r bmin _ var) by lra.
  destruct (Rlt_dec (var * (amin + mean)) (mean * mean * (1 - mean)));
  destruct (Rlt_dec (var * (bmin + 1 - mean)) (mean * ((1 - mean) * (1 - mean)))); split; intros [A B];
    try discriminate; split; auto; nra.
Qed.

(** ** C42 *)
Lemma fold_left_rsum l : forall acc, fold_left Rplus l acc = acc + rsum l.
Proof. induction l as [|x l IH]; intros acc; simpl; [ring|]. rewrite IH. ring. Qed.
Theorem fractions_sum l : rsum (complete_fractions l) = 1 /\ length (complete_fractions l) = S (length l).
Proof.
  unfold complete_fractions. rewrite rsum_app, fold_left_rsum, app_length. simpl. split; [ring|lia].
Qed.
Theorem fractions_nonneg l : List.Forall (fun x => 0 <= x) l -> rsum l <= 1 ->
  List.Forall (fun x => 0 <= x <= 1) (complete_fractions l).
Proof.
  intros H Hs. unfold complete_fractions. rewrite fold_left_rsum. apply Forall_app. split.
  - apply Forall_forall. intros x Hx. rewrite Forall_forall in H. split; [now apply H|].
    apply in_split in Hx as (l1 & l2 & ->). rewrite rsum_app in Hs. simpl in Hs.
    assert (0 <= rsum l1) by (apply rsum_nonneg, Forall_forall; intros; apply H, in_or_app; now left).
    assert (0 <= rsum l2) by (apply rsum_nonneg, Forall_forall; intros; apply H, in_or_app; right; now right).
    lra.
  - constructor; [|constructor]. pose proof (rsum_nonneg l H). lra.
Qed.

(** ** mixtures *)
Lemma log_softmax_normalised l : List.Forall (fun p => 0 <= p) l -> rsum l = 1 ->
  log_softmax (map (fun p => xln (Fin p)) l) = map (fun p => xln (Fin p)) l.
Proof.
  intros H Hs. unfold log_softmax.
  assert (E : logsumexp (map (fun p => xln (Fin p)) l) = Fin 0).
  { rewrite logsumexp_fin.
    - rewrite map_map. replace (rsum (map (fun p => wexp (xln (Fin p))) l)) with (rsum l).
      + rewrite Hs, xln_pos, ln_1 by lra. reflexivity.
      + clear Hs. induction H as [|p l Hp H IH]; [reflexivity|]. cbn [map rsum].
        rewrite <- IH. f_equal. symmetry. now apply (xln_nonneg_wexp p).
    - rewrite Forall_map. eapply Forall_impl; [|exact H]. intros p Hp. now apply (xln_nonneg_wexp p). }
  rewrite E, map_map. apply map_ext. intros p. unfold xsub. cbn [xopp].
  rewrite Ropp_0. apply xadd_0_r.
Qed.

Lemma mixture_two zeta l1 l2 : 0 <= zeta <= 1 -> fin_or_ninf l1 -> fin_or_ninf l2 ->
  fin_or_ninf (mixture_general [1 - zeta; zeta] [l1; l2])
  /\ wexp (mixture_general [1 - zeta; zeta] [l1; l2]) = (1 - zeta) * wexp l1 + zeta * wexp l2.
Proof.
  intros Hz H1 H2. unfold mixture_general. rewrite log_softmax_normalised.
  2:{ constructor; [lra|]. constructor; [lra|constructor]. }
  2:{ simpl. ring. }
  cbn [map combine fst snd].
  destruct (xln_nonneg_wexp (1 - zeta) ltac:(lra)) as [A1 A2].
  destruct (xln_nonneg_wexp zeta ltac:(lra)) as [B1 B2].
  rewrite logsumexp_fin.
  - cbn [map rsum]. rewrite !wexp_xadd by auto. rewrite A2, B2, Rplus_0_r.
    apply xln_nonneg_wexp. pose proof (wexp_nonneg l1). pose proof (wexp_nonneg l2).
    apply Rplus_le_le_0_compat; apply Rmult_le_pos; lra.
  - constructor; [now apply fin_or_ninf_add|]. constructor; [now apply fin_or_ninf_add|constructor].
Qed.

Lemma uniform_fin x low high : low < high -> fin_or_ninf (uniform_log_prob x low high).
Proof.
  intros H. unfold uniform_log_prob. destruct (Rlt_dec x low); [exact I|]. destruct (Rlt_dec high x); [exact I|].
  rewrite xln_pos by lra. exact I.
Qed.
Lemma uniform_value x low high : low < high -> low <= x <= high -> wexp (uniform_log_prob x low high) = / (high - low).
Proof.
  intros H Hx. unfold uniform_log_prob. destruct (Rlt_dec x low); [lra|]. destruct (Rlt_dec high x); [lra|].
  rewrite xln_pos by lra. cbn [xopp wexp]. rewrite exp_Ropp, exp_ln by lra. reflexivity.
Qed.
Lemma uniform_outside x low high : x < low \/ high < x -> wexp (uniform_log_prob x low high) = 0.
Proof.
  intros H. unfold uniform_log_prob. destruct (Rlt_dec x low); [reflexivity|]. destruct (Rlt_dec high x); [reflexivity|lra].
Qed.
Lemma uniform_integral low high : low < high -> is_RInt (fun x => wexp (uniform_log_prob x low high)) low high 1.
Proof.
  intros H. apply (is_RInt_ext_R (fun _ => / (high - low))); [lra| |].
  - intros x Hx. symmetry. apply uniform_value; lra.
  - apply is_RInt_const_R. field. lra.
Qed.

(** numpyro's truncated normal is the density of truncnorm_logpdf *)
Lemma tn_agree x loc scale low high : 0 < scale -> low < high ->
  wexp (truncated_normal_log_prob x loc scale low high) = wexp (truncnorm_logpdf x loc scale low high)
  /\ fin_or_ninf (truncated_normal_log_prob x loc scale low high).
Proof.
  intros Hs Hl. pose proof (ndtr_incr _ _ (std_order loc scale low high Hs Hl)) as HI.
  assert (Hp : 0 < norm_pdf x loc scale) by (apply Rdiv_lt_0_compat; [apply phi_pos|auto]).
  unfold truncated_normal_log_prob.
  destruct (Rlt_dec x low); [split; [|exact I]; rewrite truncnorm_outside; auto|].
  destruct (Rlt_dec high x); [split; [|exact I]; rewrite truncnorm_outside; auto|].
  rewrite truncnorm_density by lra. rewrite !xln_pos by lra. split; [|exact I].
  rewrite xsub_fin. cbn [wexp]. unfold Rminus at 1. rewrite exp_plus, exp_Ropp, !exp_ln by lra. reflexivity.
Qed.
Lemma tn_integral loc scale low high : 0 < scale -> low < high ->
  is_RInt (fun x => wexp (truncated_normal_log_prob x loc scale low high)) low high 1.
Proof.
  intros Hs Hl. apply (is_RInt_ext_R (fun x => wexp (truncnorm_logpdf x loc scale low high))); [lra| |].
  - intros x _. symmetry. now apply tn_agree.
  - now apply truncnorm_normalised.
Qed.
Lemma tn_outside x loc scale low high : x < low \/ high < x -> wexp (truncated_normal_log_prob x loc scale low high) = 0.
Proof.
  intros H. unfold truncated_normal_log_prob. destruct (Rlt_dec x low); [reflexivity|].
  destruct (Rlt_dec high x); [reflexivity|lra].
Qed.

Theorem two_truncated_normalised high1 loc1 low1 scale1 high2 loc2 low2 scale2 zeta a b :
  0 <= zeta <= 1 -> 0 < scale1 -> 0 < scale2 -> a <= low1 -> low1 < high1 -> high1 <= b -> a <= low2 -> low2 < high2 -> high2 <= b ->
  integrates_to (two_truncated_normal high1 loc1 low1 scale1 high2 loc2 low2 scale2 zeta) a b 1.
Proof.
  intros. unfold integrates_to, two_truncated_normal.
  apply (is_RInt_ext (fun x => (1 - zeta) * wexp (truncated_normal_log_prob x loc1 scale1 low1 high1)
                               + zeta * wexp (truncated_normal_log_prob x loc2 scale2 low2 high2))).
  { intros x _. symmetry. apply mixture_two; auto; now apply tn_agree. }
  eapply is_RInt_plus_R; [| |instantiate (1 := zeta); instantiate (1 := 1 - zeta); ring].
  - eapply is_RInt_scal_R; [|instantiate (1 := 1); ring].
    apply (is_RInt_widen _ low1 high1); auto; [lra| |now apply tn_integral]. intros; now apply tn_outside.
  - eapply is_RInt_scal_R; [|instantiate (1 := 1); ring].
    apply (is_RInt_widen _ low2 high2); auto; [lra| |now apply tn_integral]. intros; now apply tn_outside.
Qed.

(** the N-dimensional mixture *)
Definition coord_ok (c : coord) : Prop := 0 < c_scale c /\ c_ilow c < c_ihigh c /\ c_glow c < c_ghigh c.
Definition covers (ab : R * R) (c : coord) : Prop :=
  fst ab <= c_ilow c /\ c_ihigh c <= snd ab /\ fst ab <= c_glow c /\ c_ghigh c <= snd ab.

Lemma independent_fin lp cs : forall xs, List.Forall (fun c => forall x, fin_or_ninf (lp c x)) cs ->
  fin_or_ninf (independent lp cs xs) /\
  (length cs = length xs -> wexp (independent lp cs xs)
   = rprod (map (fun p => fst (fst p) (snd p)) (combine (map (fun c => (fun x => wexp (lp c x), 1)) cs) xs))).
Proof.
  unfold independent. induction cs as [|c cs IH]; intros xs H.
  - split; [exact I|]. intros _. simpl. apply exp_0.
  - inversion H as [|? ? Hc H']; subst. destruct xs as [|x xs].
    + split; [exact I|discriminate].
    + destruct (IH xs H') as [A B]. cbn [combine map xsum fold_right fst snd].
      split; [now apply fin_or_ninf_add|]. intros HL. injection HL as HL.
      change (fold_right xadd (Fin 0)) with xsum. rewrite wexp_xadd by auto. cbn [rprod]. now rewrite B.
Qed.

Lemma independent_integral lp box cs :
  Forall2 (fun (ab : R * R) c => (forall x, fin_or_ninf (lp c x)) /\ is_RInt (fun x => wexp (lp c x)) (fst ab) (snd ab) 1) box cs ->
  iterated_integral box (fun xs => wexp (independent lp cs xs)) 1.
Proof.
  intros H.
  assert (HF : List.Forall (fun c => forall x, fin_or_ninf (lp c x)) cs).
  { clear - H. induction H; constructor; tauto. }
  apply (ii_ext box (fun xs => rprod (map (fun p => fst (fst p) (snd p)) (combine (map (fun c => (fun x => wexp (lp c x), 1)) cs) xs)))).
  - intros xs Hxs. symmetry. apply independent_fin; auto.
    assert (L : length box = length cs) by (clear - H; induction H; simpl; auto).
    rewrite <- L. clear - Hxs. revert xs Hxs. induction box as [|[a b] box IH]; intros [|x xs] Hxs; try easy.
    simpl. f_equal. apply IH. apply Hxs.
  - apply (ii_value _ _ (rprod (map snd (map (fun c => (fun x => wexp (lp c x), 1)) cs)))).
    + clear. induction cs as [|c cs IH]; simpl; [auto|]. rewrite IH. ring.
    + apply ii_prod. clear HF. induction H; constructor; auto. cbn [fst snd]. tauto.
Qed.

Theorem nd_mixture_normalised zeta box cs : 0 <= zeta <= 1 -> List.Forall coord_ok cs -> Forall2 covers box cs ->
  iterated_integral box (fun xs => wexp (nd_isotropic_and_truncated zeta cs xs)) 1.
Proof.
  intros Hz Hok Hc.
  assert (HU : List.Forall (fun c => forall x, fin_or_ninf (coord_uniform c x)) cs).
  { eapply Forall_impl; [|exact Hok]. intros c (A & B & C) x. now apply uniform_fin. }
  assert (HG : List.Forall (fun c => forall x, fin_or_ninf (coord_gauss c x)) cs).
  { eapply Forall_impl; [|exact Hok]. intros c (A & B & C) x. now apply tn_agree. }
  apply (ii_ext box (fun xs => (1 - zeta) * wexp (independent coord_uniform cs xs) + zeta * wexp (independent coord_gauss cs xs))).
  { intros xs _. symmetry. apply mixture_two; auto; now apply independent_fin. }
  apply (ii_value _ _ ((1 - zeta) * 1 + zeta * 1)); [ring|].
  apply ii_plus; apply ii_scal; apply independent_integral.
  - revert Hok HU. clear HG. induction Hc as [|[a b] c box cs (C1 & C2 & C3 & C4) Hc IH]; intros Hok HU; constructor.
    + inversion Hok as [|? ? (A & B & C) Hok']; subst. inversion HU; subst. split; auto. cbn [fst snd] in *.
      apply (is_RInt_widen _ (c_ilow c) (c_ihigh c)); auto; [lra| |now apply uniform_integral].
      intros; now apply uniform_outside.
    + apply IH; [now inversion Hok|now inversion HU].
  - revert Hok HG. clear HU. induction Hc as [|[a b] c box cs (C1 & C2 & C3 & C4) Hc IH]; intros Hok HG; constructor.
    + inversion Hok as [|? ? (A & B & C) Hok']; subst. inversion HG; subst. split; auto. cbn [fst snd] in *.
      apply (is_RInt_widen _ (c_glow c) (c_ghigh c)); auto; [lra| |now apply tn_integral].
      intros; now apply tn_outside.
    + apply IH; [now inversion Hok|now inversion HG].
Qed.

(** ** skew normal *)
Section Skew.
Variables loc sigma eps : R.
Hypothesis Hs : 0 < sigma.
Hypothesis He : -1 < eps < 1.

Lemma jt_fin s x : 0 < s -> fin_or_ninf (jax_truncnorm_logpdf x (- (1 + loc) / s) ((1 - loc) / s) loc s).
Proof.
  intros H. unfold jax_truncnorm_logpdf. destruct (Rlt_dec _ _); [exact I|]. destruct (Rlt_dec _ _); [exact I|].
  rewrite !xln_pos; [exact I| |].
  - assert (- (1 + loc) / s < (1 - loc) / s) by (apply Rmult_lt_compat_r; [now apply Rinv_0_lt_compat|lra]).
    pose proof (ndtr_incr _ _ H0). lra.
  - apply Rdiv_lt_0_compat; [apply phi_pos|auto].
Qed.
Definition mass s := ndtr ((1 - loc) / s) - ndtr (- (1 + loc) / s).
Lemma mass_pos s : 0 < s -> 0 < mass s.
Proof.
  intros H. unfold mass.
  assert (- (1 + loc) / s < (1 - loc) / s) by (apply Rmult_lt_compat_r; [now apply Rinv_0_lt_compat|lra]).
  pose proof (ndtr_incr _ _ H0). lra.
Qed.
Lemma jt_value s x : 0 < s -> -1 <= x <= 1 ->
  wexp (jax_truncnorm_logpdf x (- (1 + loc) / s) ((1 - loc) / s) loc s) = norm_pdf x loc s / mass s.
Proof.
  intros H Hx. unfold jax_truncnorm_logpdf. pose proof (mass_pos s H) as Hm. unfold mass in *.
  assert (P : 0 < phi ((x - loc) / s) / s) by (apply Rdiv_lt_0_compat; [apply phi_pos|auto]).
  assert (I : 0 < / s) by now apply Rinv_0_lt_compat.
  destruct (Rlt_dec _ _) as [L|L].
  { exfalso. unfold Rdiv in L. apply Rmult_lt_reg_r in L; lra. }
  destruct (Rlt_dec _ _) as [L2|L2].
  { exfalso. unfold Rdiv in L2. apply Rmult_lt_reg_r in L2; lra. }
  rewrite !xln_pos by lra. rewrite xsub_fin. cbn [wexp]. unfold Rminus at 1. rewrite exp_plus, exp_Ropp, !exp_ln by lra.
  reflexivity.
Qed.
Lemma jt_integral s x y : 0 < s -> -1 <= x -> x <= y -> y <= 1 ->
  is_RInt (fun t => wexp (jax_truncnorm_logpdf t (- (1 + loc) / s) ((1 - loc) / s) loc s)) x y
          ((ndtr ((y - loc) / s) - ndtr ((x - loc) / s)) / mass s).
Proof.
  intros H H1 H2 H3. pose proof (mass_pos s H) as Hm.
  apply (is_RInt_ext_R (fun t => / mass s * norm_pdf t loc s)); auto.
  - intros t Ht. rewrite jt_value by lra. unfold Rdiv. ring.
  - eapply is_RInt_scal_R; [now apply norm_pdf_RInt|]. unfold Rdiv. ring.
Qed.

Definition side (below : bool) : R := if below then 1 + eps else 1 - eps.
Lemma side_pos b : 0 < side b.
Proof. destruct b; simpl; lra. Qed.
Definition skewN : R :=
  side true * truncnorm_cdf loc (- (1 + loc) / (sigma * side true)) ((1 - loc) / (sigma * side true)) loc (sigma * side true)
  + side false * truncnorm_sf loc (- (1 + loc) / (sigma * side false)) ((1 - loc) / (sigma * side false)) loc (sigma * side false).

Lemma cdf_at_loc s : 0 < s ->
  truncnorm_cdf loc (- (1 + loc) / s) ((1 - loc) / s) loc s
  = (ndtr ((Rmax (-1) (Rmin loc 1) - loc) / s) - ndtr (- (1 + loc) / s)) / mass s.
Proof.
  intros H. pose proof (mass_pos s H) as Hm. unfold truncnorm_cdf. replace ((loc - loc) / s) with 0 by (field; lra).
  assert (I : 0 < / s) by now apply Rinv_0_lt_compat.
  destruct (Rle_dec 0 (- (1 + loc) / s)) as [A|A].
  - assert (loc <= -1).
    { destruct (Rle_dec loc (-1)); auto. exfalso. unfold Rdiv in A. nra. }
    rewrite Rmin_left, Rmax_left by lra. replace (-1 - loc) with (- (1 + loc)) by ring.
    unfold Rdiv. rewrite Rminus_eq_0. ring.
  - assert (-1 < loc).
    { destruct (Rle_dec loc (-1)); [|lra]. exfalso. apply A. unfold Rdiv. nra. }
    destruct (Rle_dec ((1 - loc) / s) 0) as [B|B].
    + assert (1 <= loc).
      { destruct (Rle_dec 1 loc); auto. exfalso. unfold Rdiv in B. nra. }
      rewrite Rmin_right, Rmax_right by lra. fold (mass s). field. lra.
    + assert (loc < 1).
      { destruct (Rle_dec 1 loc); [|lra]. exfalso. apply B. unfold Rdiv. nra. }
      rewrite Rmin_left, Rmax_right by lra. replace ((loc - loc) / s) with 0 by (field; lra). reflexivity.
Qed.

Lemma clip_range : -1 <= Rmax (-1) (Rmin loc 1) <= 1.
Proof. split; [apply Rmax_l|]. apply Rmax_lub; [lra|apply Rmin_r]. Qed.

Lemma sf_at_loc s : 0 < s ->
  truncnorm_sf loc (- (1 + loc) / s) ((1 - loc) / s) loc s
  = (ndtr ((1 - loc) / s) - ndtr ((Rmax (-1) (Rmin loc 1) - loc) / s)) / mass s.
Proof.
  intros H. unfold truncnorm_sf. rewrite cdf_at_loc by auto. pose proof (mass_pos s H) as Hm. unfold mass in *.
  field. lra.
Qed.

Lemma skewN_pos : 0 < skewN.
Proof.
  unfold skewN. pose proof (side_pos true) as S1. pose proof (side_pos false) as S2.
  assert (T1 : 0 < sigma * side true) by now apply Rmult_lt_0_compat.
  assert (T2 : 0 < sigma * side false) by now apply Rmult_lt_0_compat.
  rewrite cdf_at_loc, sf_at_loc by auto. pose proof clip_range as [C1 C2].
  set (c := Rmax (-1) (Rmin loc 1)) in *.
  assert (M : forall s x y, 0 < s -> x < y -> ndtr ((x - loc) / s) < ndtr ((y - loc) / s)).
  { intros s x y Hs0 Hxy. apply ndtr_incr. apply Rmult_lt_compat_r; [now apply Rinv_0_lt_compat|lra]. }
  assert (M' : forall s x y, 0 < s -> x <= y -> ndtr ((x - loc) / s) <= ndtr ((y - loc) / s)).
  { intros s x y Hs0 [Hxy| ->]; [left; now apply M|lra]. }
  replace (- (1 + loc)) with (-1 - loc) by ring.
  pose proof (mass_pos _ T1) as P1. pose proof (mass_pos _ T2) as P2.
  destruct (Rlt_dec (-1) c).
  - apply Rplus_lt_le_0_compat.
    + apply Rmult_lt_0_compat; auto. apply Rdiv_lt_0_compat; auto. pose proof (M _ (-1) c T1 r). lra.
    + apply Rmult_le_pos; [lra|]. apply Rdiv_le_0_compat; auto. pose proof (M' _ c 1 T2 C2). lra.
  - apply Rplus_le_lt_0_compat.
    + apply Rmult_le_pos; [lra|]. apply Rdiv_le_0_compat; auto. pose proof (M' _ (-1) c T1 C1). lra.
    + apply Rmult_lt_0_compat; auto. apply Rdiv_lt_0_compat; auto. pose proof (M _ c 1 T2 ltac:(lra)). lra.
Qed.

Lemma skew_value x : 
  fin_or_ninf (skew_normal_log_prob loc sigma eps x) /\
  wexp (skew_normal_log_prob loc sigma eps x)
  = let f := side (if Rle_dec x loc then true else false) in
    f / skewN * wexp (jax_truncnorm_logpdf x (- (1 + loc) / (sigma * f)) ((1 - loc) / (sigma * f)) loc (sigma * f)).
Proof.
  unfold skew_normal_log_prob. pose proof skewN_pos as P. cbv zeta.
  change ((1 + eps) * truncnorm_cdf loc (- (1 + loc) / (sigma * (1 + eps))) ((1 - loc) / (sigma * (1 + eps))) loc (sigma * (1 + eps)) +
       (1 - eps) * truncnorm_sf loc (- (1 + loc) / (sigma * (1 - eps))) ((1 - loc) / (sigma * (1 - eps))) loc (sigma * (1 - eps)))
    with skewN.
  replace (1 + (if Rle_dec x loc then 1 else - (1)) * eps) with (side (if Rle_dec x loc then true else false))
    by (destruct (Rle_dec x loc); simpl; ring).
  set (f := side _). assert (Hf : 0 < f) by apply side_pos. cbv zeta.
  assert (Hsf : 0 < sigma * f) by now apply Rmult_lt_0_compat.
  rewrite (xln_pos f Hf), (xln_pos skewN P).
  pose proof (jt_fin (sigma * f) x Hsf) as F.
  destruct (jax_truncnorm_logpdf _ _ _ _ _) as [r| | |]; simpl in F; try tauto.
  - split; [exact I|]. cbn [xadd]. rewrite xsub_fin. cbn [wexp]. unfold Rminus. rewrite !exp_plus, exp_Ropp, !exp_ln by auto.
    unfold Rdiv. ring.
  - split; [exact I|]. cbn. ring.
Qed.

Theorem skew_normalised : integrates_to (skew_normal_log_prob loc sigma eps) (-1) 1 1.
Proof.
  unfold integrates_to. pose proof skewN_pos as P. pose proof clip_range as [C1 C2].
  set (c := Rmax (-1) (Rmin loc 1)) in *.
  pose proof (side_pos true) as S1. pose proof (side_pos false) as S2.
  assert (T1 : 0 < sigma * side true) by now apply Rmult_lt_0_compat.
  assert (T2 : 0 < sigma * side false) by now apply Rmult_lt_0_compat.
  assert (Below : forall x, -1 < x < c -> x <= loc).
  { intros x Hx. unfold c in Hx. destruct (Rle_dec x loc); auto. exfalso.
    assert (Rmax (-1) (Rmin loc 1) <= x); [|lra]. apply Rmax_lub; [lra|]. pose proof (Rmin_l loc 1). lra. }
  assert (Above : forall x, c < x < 1 -> ~ x <= loc).
  { intros x Hx Hl. unfold c in Hx. pose proof (Rmax_r (-1) (Rmin loc 1)).
    assert (x <= Rmin loc 1) by (apply Rmin_glb; lra). lra. }
  apply (is_RInt_Chasles_R _ (-1) c 1
    (side true / skewN * ((ndtr ((c - loc) / (sigma * side true)) - ndtr ((-1 - loc) / (sigma * side true))) / mass (sigma * side true)))
    (side false / skewN * ((ndtr ((1 - loc) / (sigma * side false)) - ndtr ((c - loc) / (sigma * side false))) / mass (sigma * side false)))).
  - apply (is_RInt_ext_R (fun x => side true / skewN * wexp (jax_truncnorm_logpdf x (- (1 + loc) / (sigma * side true)) ((1 - loc) / (sigma * side true)) loc (sigma * side true)))); auto.
    + intros x Hx. rewrite (proj2 (skew_value x)). destruct (Rle_dec x loc) as [|N]; [reflexivity|]. exfalso; apply N; auto.
    + eapply is_RInt_scal_R; [apply jt_integral; auto; lra|reflexivity].
  - apply (is_RInt_ext_R (fun x => side false / skewN * wexp (jax_truncnorm_logpdf x (- (1 + loc) / (sigma * side false)) ((1 - loc) / (sigma * side false)) loc (sigma * side false)))); auto.
    + intros x Hx. rewrite (proj2 (skew_value x)). destruct (Rle_dec x loc) as [N|]; [|reflexivity]. exfalso; eapply Above; eauto.
    + eapply is_RInt_scal_R; [apply jt_integral; auto; lra|reflexivity].
  - replace (-1 - loc) with (- (1 + loc)) by ring. unfold c at 1 2.
    transitivity (skewN / skewN); [field; lra|].
    unfold skewN at 1. rewrite cdf_at_loc, sf_at_loc by auto. fold c. unfold Rdiv. ring.
Qed.
End Skew.

(** the conversions compute the moments of the Beta density *)
Theorem beta_true_moments a b : 1 < a -> 1 < b ->
  exists m v B, beta_to_mean_variance a b 0 1 = (Fin m, Fin v) /\ 0 < B
  /\ is_RInt (fun x => Rpower x (a - 1) * Rpower (1 - x) (b - 1)) 0 1 B
  /\ is_RInt (fun x => x * (Rpower x (a - 1) * Rpower (1 - x) (b - 1))) 0 1 (m * B)
  /\ is_RInt (fun x => (x - m) * (x - m) * (Rpower x (a - 1) * Rpower (1 - x) (b - 1))) 0 1 (v * B).
Proof.
  intros Ha Hb. rewrite to_mean_variance_fin by lra.
  assert (W : forall x, 0 < x < 1 -> beta_weight a b x = Rpower x (a - 1) * Rpower (1 - x) (b - 1)).
  { intros x Hx. unfold beta_weight. rewrite !pw_pos by lra. reflexivity. }
  exists (a / (a + b)), (a * b / ((a + b) * (a + b) * (a + b + 1))), (betaB a b). split; [f_equal; f_equal; ring|].
  split; [now apply betaB_pos|]. split; [|split].
  - apply (is_RInt_ext_R (beta_weight a b)); [lra|intros; now apply W|now apply betaB_int].
  - apply (is_RInt_ext_R (fun x => x * beta_weight a b x)); [lra|intros; now rewrite W|now apply beta_first].
  - apply (is_RInt_ext_R (fun x => (x - a / (a + b)) * (x - a / (a + b)) * beta_weight a b x));
      [lra|intros; now rewrite W|now apply beta_variance].
Qed.

Lemma tn_value x loc scale low high : 0 < scale -> low < high -> low <= x <= high ->
  wexp (truncated_normal_log_prob x loc scale low high)
  = norm_pdf x loc scale / (ndtr ((high - loc) / scale) - ndtr ((low - loc) / scale)).
Proof.
  intros Hs Hl Hx. rewrite (proj1 (tn_agree x loc scale low high Hs Hl)). now apply truncnorm_density.
Qed.
Theorem orientation_value zeta scale1 scale2 t1 t2 : 0 <= zeta <= 1 -> 0 < scale1 -> 0 < scale2 ->
  -1 <= t1 <= 1 -> -1 <= t2 <= 1 ->
  wexp (independent_spin_orientation zeta scale1 scale2 [t1; t2])
  = (1 - zeta) / 4
    + zeta * (norm_pdf t1 1 scale1 / (ndtr 0 - ndtr (- 2 / scale1))) * (norm_pdf t2 1 scale2 / (ndtr 0 - ndtr (- 2 / scale2))).
Proof.
  intros Hz H1 H2 Ht1 Ht2. unfold independent_spin_orientation, nd_isotropic_and_truncated.
  set (cs := [mkcoord 1 scale1 (-1) 1 (-1) 1; mkcoord 1 scale2 (-1) 1 (-1) 1]).
  assert (HU : List.Forall (fun c => forall x, fin_or_ninf (coord_uniform c x)) cs).
  { constructor; [|constructor; [|constructor]]; intros x; apply uniform_fin; simpl; lra. }
  assert (HG : List.Forall (fun c => forall x, fin_or_ninf (coord_gauss c x)) cs).
  { constructor; [|constructor; [|constructor]]; intros x; apply tn_agree; simpl; lra. }
  rewrite (proj2 (mixture_two zeta _ _ Hz (proj1 (independent_fin _ cs _ HU)) (proj1 (independent_fin _ cs _ HG)))).
  rewrite (proj2 (independent_fin _ cs [t1; t2] HU) eq_refl), (proj2 (independent_fin _ cs [t1; t2] HG) eq_refl).
  cbn [cs map combine fst snd rprod]. unfold coord_uniform, coord_gauss. cbn [c_loc c_scale c_ilow c_ihigh c_glow c_ghigh].
  rewrite !uniform_value, !tn_value by lra. rewrite !Rminus_eq_0.
  replace (0 / scale1) with 0 by (unfold Rdiv; ring). replace (0 / scale2) with 0 by (unfold Rdiv; ring).
  replace (-1 - 1) with (- 2) by ring. replace (1 - -1) with 2 by ring. field.
  pose proof (ndtr_incr (- 2 / scale1) 0) as A. pose proof (ndtr_incr (- 2 / scale2) 0) as B.
  assert (- 2 / scale1 < 0) by (apply Rlt_div_l; lra).
  assert (- 2 / scale2 < 0) by (apply Rlt_div_l; lra).
  split; lra.
Qed.
