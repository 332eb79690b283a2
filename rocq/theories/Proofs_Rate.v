(** Lemmas for C137: the expected rate and its variance in floating-point arithmetic. *)
From Coq Require Import Reals List ZArith Permutation Lra Lia.
From Flocq Require Import Core Mult_error.
From Verif Require Import Model_Rounding Spec_Rounding Proofs_Rounding.
Import ListNotations.
Open Scope R_scope.

Lemma sum_map_le_mult : forall (l : list R) k, (length l <= k)%nat ->
  (sum_of l) ^ 2 <= INR k * sum_of (map (fun w => w ^ 2) l).
Proof.
  assert (C : forall l : list R, 0 <= sum_of (map (fun w => w ^ 2) l)).
  { induction l as [|a l IH]; unfold sum_of in *; cbn [map fold_right]; [lra|]. pose proof (pow2_ge_0 a). lra. }
  assert (D : forall (l : list R) a, 2 * a * sum_of l <= INR (length l) * a ^ 2 + sum_of (map (fun w => w ^ 2) l)).
  { induction l as [|b l IH]; intros a; [unfold sum_of; simpl; lra|]. specialize (IH a).
    cbn [length map]. rewrite S_INR. unfold sum_of in *. cbn [fold_right].
    assert (0 <= (a - b) ^ 2) by (apply pow2_ge_0). nra. }
  assert (E : forall l : list R, (sum_of l) ^ 2 <= INR (length l) * sum_of (map (fun w => w ^ 2) l)).
  { induction l as [|a l IH]; [unfold sum_of; simpl; lra|].
    cbn [length map]. rewrite S_INR. specialize (D l a). unfold sum_of in *. cbn [fold_right]. nra. }
  intros l k L. eapply Rle_trans; [apply E|]. apply Rmult_le_compat_r; [apply C|now apply le_INR].
Qed.

Section Rate.

Variables emin prec : Z.
Hypothesis Hprec : (0 < prec)%Z.
Variables e eta : R.
Variables fexp flog : R -> R.
Variable order : list R -> tree.
Hypothesis He : 0 <= e.
Hypothesis Heta : 0 <= eta.
Hypothesis exp_ok : accurate emin prec e eta (fun _ => True) exp fexp.
Hypothesis log_ok : accurate emin prec e eta (fun x => 0 < x) ln flog.
Hypothesis order_ok : adds_up order.

Local Notation fl := (fl emin prec).
Local Notation u := (unit_roundoff prec).
Local Notation flt := (is_float emin prec).
Local Notation tiny := (/ 2 * bpow radix2 emin).

Lemma exp_ok' : accurate emin prec e eta (fun x => x <= 0) exp fexp.
Proof. intros x F _. now apply exp_ok. Qed.

Lemma u_pos : 0 <= u <= / 2.
Proof. pose proof (@u_bounds prec Hprec). lra. Qed.

Lemma twice_float : forall x, flt x -> flt (2 * x).
Proof.
  intros x F. rewrite Rmult_comm. change 2 with (bpow radix2 1).
  apply mult_bpow_pos_exact_FLT; [exact F|lia].
Qed.

Lemma fl_id : forall x, flt x -> fl x = x.
Proof. intros x F. unfold Model_Rounding.fl. apply round_generic; [apply valid_rnd_N|exact F]. Qed.

Lemma fl_twice_exact : forall x, flt x -> fl (2 * x) = 2 * x.
Proof. intros x F. now apply fl_id, twice_float. Qed.

(** the exponential of a number that is off by [d] *)
Lemma fexp_off : forall x X d, flt x -> Rabs (x - X) <= d ->
  Rabs (fexp x - exp X) <= exp_error e d * exp X + eta.
Proof.
  intros x X d F D. destruct (exp_ok x F I) as [_ A]. rewrite (Rabs_pos_eq (exp x)) in A by (left; apply exp_pos).
  apply Rabs_le_inv in D. pose proof (exp_pos X) as PX.
  assert (UB : exp x <= exp d * exp X) by (rewrite <- exp_plus; apply exp_mono; lra).
  assert (LB : exp (- d) * exp X <= exp x) by (rewrite <- exp_plus; apply exp_mono; lra).
  assert (B : Rabs (exp x - exp X) <= (exp d - 1) * exp X).
  { apply Rabs_le. split; [|lra].
    assert (2 <= exp d + exp (- d)).
    { pose proof (exp_ineq1_le d). pose proof (exp_ineq1_le (- d)). lra. }
    nra. }
  replace (fexp x - exp X) with ((fexp x - exp x) + (exp x - exp X)) by ring.
  eapply Rle_trans; [apply Rabs_triang|].
  assert (e * exp x <= e * (exp d * exp X)) by (apply Rmult_le_compat_l; lra).
  unfold exp_error. replace (((1 + e) * exp d - 1) * exp X) with (e * (exp d * exp X) + (exp d - 1) * exp X) by ring. lra.
Qed.

Lemma exp_error_pos : forall d, 0 <= d -> 0 <= exp_error e d.
Proof. intros d D. unfold exp_error. pose proof (exp_ineq1_le d). nra. Qed.

Lemma weights_pos : forall inj, kept inj <> [] -> 0 < sum_of (weights inj).
Proof. intros inj K. unfold weights. now apply sum_exp_pos. Qed.

Lemma event_error_pos : forall N h W L, (1 <= N)%nat -> 0 <= W -> sum_error u e eta N h < 1 ->
  0 <= event_error u e eta N h W L.
Proof.
  intros N h W L N1 W0 Q. unfold event_error. pose proof u_pos.
  pose proof (@log_error_pos prec Hprec e eta He Heta N h N1 Q).
  pose proof (Rabs_pos L).
  assert (0 <= u * W) by (apply Rmult_le_pos; lra).
  assert (0 <= u * (Rabs L + u * W + log_error u e eta N h)) by (apply Rmult_le_pos; lra). lra.
Qed.

Lemma good_facts : forall N W inj, good_row emin prec N W inj -> (1 <= N)%nat /\ 0 <= W.
Proof.
  intros N W inj (Ln & Ne & G). destruct (kept inj) as [|s k] eqn:K; [congruence|].
  assert (I : In s (kept inj)) by (rewrite K; now left). unfold kept in I. apply filter_In in I. destruct I as [I M].
  split. { destruct inj; [contradiction|simpl in Ln; lia]. }
  destruct (G s I M) as (_ & _ & B). pose proof (Rabs_pos (s_lp s - s_ref s)). lra.
Qed.

Lemma logsumexp_float : forall v y, fl_logsumexp emin prec fexp flog order v = Some y -> flt y.
Proof.
  intros v y E. unfold fl_logsumexp in E. destruct (row_max v) as [m|]; [|discriminate].
  assert (y = fl (flog (fl_sum emin prec (order (map (fl_term emin prec fexp m) v))) + m)) as -> by congruence.
  apply fl_float. exact Hprec.
Qed.

Lemma rate_from : forall T n inj y d,
  fl_logsumexp emin prec fexp flog order (map (fl_log_prob emin prec) inj) = Some y ->
  kept inj <> [] -> 0 <= d -> Rabs (y - exact_term inj) <= d -> 0 <= T -> 0 < n ->
  Rabs (fl_expected_rate emin prec fexp flog order T n inj - exact_rate T n inj) <=
    ((1 + u) ^ 2 * (1 + exp_error e d) - 1) * exact_rate T n inj +
    (1 + u) * ((1 + u) * (T * eta) + tiny) / n + tiny.
Proof.
  intros T n inj y d Ey K d0 B HT Hn. pose proof u_pos as U.
  pose proof (logsumexp_float _ _ Ey) as Fy.
  unfold fl_expected_rate. rewrite Ey. cbn [fl_exp].
  change (exact_term inj) with (ln (sum_of (weights inj))) in B.
  assert (P : 0 < sum_of (weights inj)) by (now apply weights_pos).
  set (S := sum_of (weights inj)) in *.
  pose proof (fexp_off _ _ _ Fy B) as E. rewrite exp_ln in E by assumption.
  pose proof (exp_error_pos d d0) as X0. set (x := exp_error e d) in *.
  assert (t0 : 0 <= tiny) by (pose proof (bpow_ge_0 radix2 emin); lra). set (t := tiny) in *.
  (* the product *)
  assert (P1 : Rabs (T * fexp y - T * S) <= T * (x * S + eta)).
  { rewrite <- Rmult_minus_distr_l, Rabs_mult, (Rabs_pos_eq T) by assumption. now apply Rmult_le_compat_l. }
  assert (TS : 0 <= T * S) by (apply Rmult_le_pos; lra).
  assert (P2 : Rabs (T * fexp y) <= T * S + T * (x * S + eta)).
  { replace (T * fexp y) with ((T * fexp y - T * S) + T * S) by ring. eapply Rle_trans; [apply Rabs_triang|].
    rewrite (Rabs_pos_eq (T * S)) by assumption. lra. }
  assert (P3 : Rabs (fl (T * fexp y) - T * S) <= (1 + u) * (T * (x * S + eta)) + u * (T * S) + t).
  { replace (fl (T * fexp y) - T * S) with ((fl (T * fexp y) - T * fexp y) + (T * fexp y - T * S)) by ring.
    eapply Rle_trans; [apply Rabs_triang|]. pose proof (@fl_err emin prec Hprec (T * fexp y)) as R.
    fold t in R. assert (u * Rabs (T * fexp y) <= u * (T * S + T * (x * S + eta))) by (apply Rmult_le_compat_l; lra). lra. }
  (* the quotient *)
  set (p := fl (T * fexp y)) in *. set (D := (1 + u) * (T * (x * S + eta)) + u * (T * S) + t) in *.
  assert (I0 : 0 < / n) by (now apply Rinv_0_lt_compat).
  assert (Q1 : Rabs (p / n - exact_rate T n inj) <= D / n).
  { unfold exact_rate. fold S. replace (p / n - T * S / n) with ((p - T * S) * / n) by (unfold Rdiv; ring).
    rewrite Rabs_mult, (Rabs_pos_eq (/ n)) by lra. apply Rmult_le_compat_r; lra. }
  assert (M0 : 0 <= exact_rate T n inj) by (unfold exact_rate; fold S; apply Rmult_le_pos; lra).
  assert (Q2 : Rabs (p / n) <= exact_rate T n inj + D / n).
  { replace (p / n) with ((p / n - exact_rate T n inj) + exact_rate T n inj) by ring.
    eapply Rle_trans; [apply Rabs_triang|]. rewrite (Rabs_pos_eq (exact_rate T n inj)) by assumption. lra. }
  replace (fl (p / n) - exact_rate T n inj) with ((fl (p / n) - p / n) + (p / n - exact_rate T n inj)) by ring.
  eapply Rle_trans; [apply Rabs_triang|]. pose proof (@fl_err emin prec Hprec (p / n)) as R. fold t in R.
  assert (R2 : u * Rabs (p / n) <= u * (exact_rate T n inj + D / n)) by (apply Rmult_le_compat_l; lra).
  eapply Rle_trans with ((u * (exact_rate T n inj + D / n) + t) + D / n); [lra|].
  right. unfold exact_rate, D. fold S. field. lra.
Qed.

Lemma rate_error : forall N h W T n inj, good_row emin prec N W inj -> chains order N h ->
  sum_error u e eta N h < 1 -> 0 <= T -> 0 < n ->
  let d := event_error u e eta N h W (ln (sum_of (weights inj))) in
  Rabs (fl_expected_rate emin prec fexp flog order T n inj - exact_rate T n inj) <=
    ((1 + u) ^ 2 * (1 + exp_error e d) - 1) * exact_rate T n inj +
    (1 + u) * ((1 + u) * (T * eta) + tiny) / n + tiny.
Proof.
  intros N h W T n inj G C Q HT Hn d. destruct (good_facts _ _ _ G) as [N1 W0].
  destruct (@event_ok emin prec Hprec e eta fexp flog order He Heta exp_ok' log_ok order_ok N h W inj G C Q) as (y & Ey & _ & B).
  apply rate_from with (y := y); try assumption; [apply G|]. now apply event_error_pos.
Qed.

Lemma rate_none : forall T n inj, kept inj = [] -> fl_expected_rate emin prec fexp flog order T n inj = 0.
Proof.
  intros T n inj K. unfold fl_expected_rate.
  assert (E : fl_logsumexp emin prec fexp flog order (map (fl_log_prob emin prec) inj) = None).
  { unfold fl_logsumexp. replace (row_max (map (fl_log_prob emin prec) inj)) with (@None R); [reflexivity|].
    symmetry. induction inj as [|s inj IH]; [reflexivity|]. unfold kept in K. cbn [filter] in K.
    cbn [map]. unfold fl_log_prob at 1. destruct (s_mask s); [discriminate|]. cbn [row_max]. apply IH. exact K. }
  rewrite E. cbn [fl_exp]. rewrite Rmult_0_r. unfold Model_Rounding.fl at 2. rewrite round_0 by apply valid_rnd_N.
  unfold Rdiv. rewrite Rmult_0_l. unfold Model_Rounding.fl. apply round_0, valid_rnd_N.
Qed.

Lemma variance_none : forall T n inj, kept inj = [] -> fl_variance emin prec fexp flog order T n inj = 0.
Proof.
  intros T n inj K. unfold fl_variance.
  assert (E : row_max (map (fl_log_prob emin prec) inj) = None /\
              row_max (map (fl_twice emin prec) (map (fl_log_prob emin prec) inj)) = None).
  { induction inj as [|s inj IH]; [split; reflexivity|]. unfold kept in K. cbn [filter] in K.
    cbn [map]. unfold fl_log_prob at 1 3. destruct (s_mask s); [discriminate|]. cbn [row_max fl_twice]. apply IH. exact K. }
  destruct E as [E1 E2]. unfold fl_logsumexp. rewrite E1, E2. cbn [fl_twice fl_log_term fl_exp].
  rewrite Rminus_0_r. unfold Model_Rounding.fl. apply round_0, valid_rnd_N.
Qed.

(** twice the log weights *)
Lemma xlse_twice : forall row,
  xlse (map (fl_twice emin prec) (map (fl_log_prob emin prec) row)) =
  ln (sum_of (map (fun s => exp (2 * fl (s_lp s - s_ref s))) (kept row))).
Proof.
  intros row. unfold xlse. f_equal. induction row as [|s row IH]; [reflexivity|].
  unfold kept. cbn [map filter]. unfold fl_log_prob at 1. destruct (s_mask s).
  { cbn [fl_twice]. rewrite fl_twice_exact by (apply fl_float; exact Hprec).
    unfold sum_of in *. cbn [map fold_right]. rewrite IH. reflexivity. }
  cbn [fl_twice]. unfold sum_of in *. cbn [map fold_right]. rewrite IH. unfold kept. ring.
Qed.

Lemma squares : forall inj,
  sum_of (map (fun w => w ^ 2) (weights inj)) = sum_of (map (fun s => exp (2 * (s_lp s - s_ref s))) (kept inj)).
Proof.
  intros inj. unfold weights. rewrite map_map. f_equal. apply map_ext. intros s. simpl. rewrite Rmult_1_r, <- exp_plus.
  f_equal. ring.
Qed.

Lemma event_ok2 : forall N h W row, good_row emin prec N W row -> chains order N h ->
  sum_error u e eta N h < 1 ->
  exists y, fl_logsumexp emin prec fexp flog order (map (fl_twice emin prec) (map (fl_log_prob emin prec) row)) = Some y /\ flt y /\
    let l := ln (sum_of (map (fun w => w ^ 2) (weights row))) in
    Rabs (y - l) <= event_error u e eta N h (2 * W) l.
Proof.
  intros N h W row (Ln & Ne & G) D Q. pose proof u_pos as U.
  destruct (@logsumexp_error emin prec Hprec e eta fexp flog order He Heta exp_ok' log_ok order_ok
     (map (fl_twice emin prec) (map (fl_log_prob emin prec) row)) N h) as (y & Ey & Fy & B).
  { now rewrite !map_length. }
  { intros x X. apply in_map_iff in X. destruct X as (a & E & _). destruct a as [a|]; [|discriminate].
    cbn [fl_twice] in E. assert (x = fl (2 * a)) by congruence. subst x. apply fl_float. exact Hprec. }
  { destruct (kept row) as [|s k] eqn:K; [congruence|].
    assert (I : In s (kept row)) by (rewrite K; now left). unfold kept in I. apply filter_In in I. destruct I as [I M].
    exists (fl (2 * fl (s_lp s - s_ref s))). apply in_map_iff. exists (Some (fl (s_lp s - s_ref s))). split; [reflexivity|].
    apply in_map_iff. exists s. split; [|exact I]. unfold fl_log_prob. now rewrite M. }
  { intros l E. apply D. rewrite E, !map_length. exact Ln. }
  { exact Q. }
  exists y. split; [exact Ey|]. split; [exact Fy|]. cbv zeta. rewrite xlse_twice in B. rewrite squares.
  set (V := ln (sum_of (map (fun s => exp (2 * fl (s_lp s - s_ref s))) (kept row)))) in *.
  set (l := ln (sum_of (map (fun s => exp (2 * (s_lp s - s_ref s))) (kept row)))).
  assert (L : Rabs (V - l) <= u * (2 * W)).
  { unfold V, l. apply (lse_lipschitz (kept row) (fun s => 2 * fl (s_lp s - s_ref s)) (fun s => 2 * (s_lp s - s_ref s))).
    { exact Ne. }
    intros s I. unfold kept in I. apply filter_In in I. destruct I as [I M]. destruct (G s I M) as (F1 & F2 & B2).
    rewrite <- Rmult_minus_distr_l, Rabs_mult, (Rabs_pos_eq 2) by lra.
    pose proof (@fl_sub emin prec Hprec (s_lp s) (s_ref s) F1 F2).
    assert (u * Rabs (s_lp s - s_ref s) <= u * W) by (apply Rmult_le_compat_l; lra). lra. }
  unfold event_error. set (LE := log_error u e eta N h) in *.
  replace (y - l) with ((y - V) + (V - l)) by ring.
  eapply Rle_trans; [apply Rabs_triang|].
  assert (C : Rabs V <= Rabs l + u * (2 * W)).
  { replace V with (l + (V - l)) by ring. eapply Rle_trans; [apply Rabs_triang|]. lra. }
  assert (u * (Rabs V + LE) <= u * (Rabs l + u * (2 * W) + LE)) by (apply Rmult_le_compat_l; lra).
  lra.
Qed.

Lemma chain_ok : forall p q r D dd X dr, flt p -> flt q -> flt r ->
  Rabs ((p - q) - D) <= dd -> Rabs (r - X) <= dr ->
  Rabs (fl (fl (p - q) + r) - (D + X)) <= chain_error u D dd X dr.
Proof.
  intros p q r D dd X dr Fp Fq Fr HD HX. pose proof u_pos as U.
  pose proof (@fl_sub emin prec Hprec p q Fp Fq) as A.
  assert (B : Rabs (p - q) <= Rabs D + dd).
  { replace (p - q) with (D + ((p - q) - D)) by ring. eapply Rle_trans; [apply Rabs_triang|]. lra. }
  assert (A' : u * Rabs (p - q) <= u * (Rabs D + dd)) by (apply Rmult_le_compat_l; lra).
  assert (Fd : flt (fl (p - q))) by (apply fl_float; exact Hprec).
  set (d := fl (p - q)) in *.
  assert (S1 : Rabs (d + r - (D + X)) <= dd + u * (Rabs D + dd) + dr).
  { replace (d + r - (D + X)) with ((d - (p - q)) + ((p - q) - D) + (r - X)) by ring.
    eapply Rle_trans; [apply Rabs_triang|]. pose proof (Rabs_triang (d - (p - q)) ((p - q) - D)). lra. }
  unfold chain_error. set (s := dd + u * (Rabs D + dd) + dr) in *.
  pose proof (@fl_add emin prec Hprec d r Fd Fr) as E.
  assert (B2 : Rabs (d + r) <= Rabs (D + X) + s).
  { replace (d + r) with ((D + X) + (d + r - (D + X))) by ring. eapply Rle_trans; [apply Rabs_triang|]. lra. }
  assert (u * Rabs (d + r) <= u * (Rabs (D + X) + s)) by (apply Rmult_le_compat_l; lra).
  replace (fl (d + r) - (D + X)) with ((fl (d + r) - (d + r)) + (d + r - (D + X))) by ring.
  eapply Rle_trans; [apply Rabs_triang|]. lra.
Qed.

Lemma chain_pos : forall D dd X dr, 0 <= dd -> 0 <= dr -> 0 <= chain_error u D dd X dr.
Proof.
  intros D dd X dr H1 H2. unfold chain_error. pose proof u_pos. pose proof (Rabs_pos D). pose proof (Rabs_pos (D + X)).
  assert (0 <= u * (Rabs D + dd)) by (apply Rmult_le_pos; lra).
  assert (0 <= u * (Rabs (D + X) + (dd + u * (Rabs D + dd) + dr))) by (apply Rmult_le_pos; lra). lra.
Qed.

Lemma lib_error_pos : forall x, 0 <= lib_error e eta x.
Proof. intros x. unfold lib_error. pose proof (Rabs_pos (ln x)). assert (0 <= e * Rabs (ln x)) by (now apply Rmult_le_pos). lra. Qed.

Lemma triple : forall x, flt x -> Rabs (fl (3 * x) - 3 * x) <= u * (3 * Rabs x).
Proof.
  intros x F. replace (3 * x) with (2 * x + x) by ring.
  eapply Rle_trans; [apply (@fl_add emin prec Hprec); [now apply twice_float|exact F]|].
  replace (2 * x + x) with (3 * x) by ring. rewrite Rabs_mult, (Rabs_pos_eq 3) by lra. lra.
Qed.

Lemma terms_ok : forall N h W T n inj, good_row emin prec N W inj -> chains order N h ->
  sum_error u e eta N h < 1 -> 0 < T -> 0 < n -> flt T -> flt n ->
  exists t1 t2, fl_variance emin prec fexp flog order T n inj = fl (t1 - t2) /\ flt t1 /\ flt t2 /\
    Rabs (t1 - first_term T n inj) <= first_error u e eta N h W T n inj * first_term T n inj + eta /\
    Rabs (t2 - second_term T n inj) <= second_error u e eta N h W T n inj * second_term T n inj + eta /\
    0 <= first_error u e eta N h W T n inj /\ 0 <= second_error u e eta N h W T n inj.
Proof.
  intros N h W T n inj G C Q HT Hn FT Fn. pose proof u_pos as U. destruct (good_facts _ _ _ G) as [N1 W0].
  destruct (@event_ok emin prec Hprec e eta fexp flog order He Heta exp_ok' log_ok order_ok N h W inj G C Q) as (y & Ey & Fy & B).
  destruct (event_ok2 N h W inj G C Q) as (z & Ez & Fz & B2). cbv zeta in B2.
  change (exact_term inj) with (ln (sum_of (weights inj))) in B.
  assert (P : 0 < sum_of (weights inj)) by (apply weights_pos; apply G).
  assert (P2 : 0 < sum_of (map (fun w => w ^ 2) (weights inj))) by (rewrite squares; apply sum_exp_pos; apply G).
  destruct (log_ok T FT HT) as [FlT AT]. destruct (log_ok n Fn Hn) as [Fln An].
  fold (lib_error e eta T) in AT. fold (lib_error e eta n) in An.
  pose proof (lib_error_pos T) as DT. pose proof (lib_error_pos n) as Dn.
  set (dT := lib_error e eta T) in *. set (dn := lib_error e eta n) in *.
  unfold fl_variance. cbv zeta. rewrite Ey, Ez. cbn [fl_twice fl_log_term fl_exp].
  rewrite !fl_twice_exact by assumption.
  set (S := sum_of (weights inj)) in *. set (S2 := sum_of (map (fun w => w ^ 2) (weights inj))) in *.
  set (a1 := fl (fl (2 * flog T - 2 * flog n) + z)).
  set (a2 := fl (fl (2 * flog T - fl (3 * flog n)) + 2 * y)).
  assert (E1 : Rabs (a1 - (2 * ln T - 2 * ln n + ln S2)) <=
            first_log_error u e eta T n (ln S2) (event_error u e eta N h (2 * W) (ln S2))).
  { unfold first_log_error. apply chain_ok; try (now apply twice_float); [exact Fz| |exact B2]. fold dT dn.
    replace (2 * flog T - 2 * flog n - (2 * ln T - 2 * ln n)) with (2 * (flog T - ln T) + - (2 * (flog n - ln n))) by ring.
    eapply Rle_trans; [apply Rabs_triang|]. rewrite Rabs_Ropp, !Rabs_mult, (Rabs_pos_eq 2) by lra. lra. }
  assert (E2 : Rabs (a2 - (2 * ln T - 3 * ln n + 2 * ln S)) <=
            second_log_error u e eta T n (2 * ln S) (2 * event_error u e eta N h W (ln S))).
  { unfold second_log_error. apply chain_ok; [now apply twice_float|apply fl_float; exact Hprec|now apply twice_float| |].
    { fold dT dn. pose proof (triple _ Fln) as T3.
      assert (Bn : Rabs (flog n) <= Rabs (ln n) + dn).
      { replace (flog n) with (ln n + (flog n - ln n)) by ring. eapply Rle_trans; [apply Rabs_triang|]. lra. }
      assert (u * (3 * Rabs (flog n)) <= u * (3 * (Rabs (ln n) + dn))) by (apply Rmult_le_compat_l; lra).
      replace (2 * flog T - fl (3 * flog n) - (2 * ln T - 3 * ln n))
        with ((2 * (flog T - ln T) + - (3 * (flog n - ln n))) + - (fl (3 * flog n) - 3 * flog n)) by ring.
      eapply Rle_trans; [apply Rabs_triang|]. rewrite Rabs_Ropp.
      pose proof (Rabs_triang (2 * (flog T - ln T)) (- (3 * (flog n - ln n)))) as X.
      rewrite Rabs_Ropp, !Rabs_mult, (Rabs_pos_eq 2), (Rabs_pos_eq 3) in X by lra. lra. }
    rewrite <- Rmult_minus_distr_l, Rabs_mult, (Rabs_pos_eq 2) by lra. lra. }
  assert (T1 : exp (2 * ln T - 2 * ln n + ln S2) = first_term T n inj).
  { unfold first_term. fold S2. rewrite exp_plus, exp_ln by assumption. f_equal.
    replace (2 * ln T - 2 * ln n) with (ln T + ln T + (- ln n + - ln n)) by ring.
    rewrite !exp_plus, !exp_Ropp, !exp_ln by assumption. field. lra. }
  assert (T2 : exp (2 * ln T - 3 * ln n + 2 * ln S) = second_term T n inj).
  { unfold second_term. fold S.
    replace (2 * ln T - 3 * ln n + 2 * ln S) with (ln T + ln T + (- ln n + (- ln n + - ln n)) + (ln S + ln S)) by ring.
    rewrite !exp_plus, !exp_Ropp, !exp_ln by assumption. field. lra. }
  assert (F1 : flt a1) by (apply fl_float; exact Hprec). assert (F2 : flt a2) by (apply fl_float; exact Hprec).
  pose proof (fexp_off _ _ _ F1 E1) as X1. pose proof (fexp_off _ _ _ F2 E2) as X2.
  rewrite T1 in X1. rewrite T2 in X2.
  exists (fexp a1), (fexp a2). split; [reflexivity|].
  split; [now apply exp_ok|]. split; [now apply exp_ok|].
  split; [exact X1|]. split; [exact X2|].
  pose proof (event_error_pos N h (2 * W) (ln S2) N1 ltac:(lra) Q). pose proof (event_error_pos N h W (ln S) N1 W0 Q).
  pose proof (Rabs_pos (ln n)). assert (0 <= u * (3 * (Rabs (ln n) + dn))) by (apply Rmult_le_pos; lra).
  split; apply exp_error_pos; apply chain_pos; fold dT dn S S2; lra.
Qed.

Lemma variance_error : forall N h W T n inj, good_row emin prec N W inj -> chains order N h ->
  sum_error u e eta N h < 1 -> 0 < T -> 0 < n -> flt T -> flt n ->
  Rabs (fl_variance emin prec fexp flog order T n inj - exact_variance T n inj) <=
    (1 + u) * (first_error u e eta N h W T n inj * first_term T n inj +
               second_error u e eta N h W T n inj * second_term T n inj + 2 * eta) +
    u * Rabs (exact_variance T n inj).
Proof.
  intros N h W T n inj G C Q HT Hn FT Fn. pose proof u_pos as U.
  destruct (terms_ok N h W T n inj G C Q HT Hn FT Fn) as (t1 & t2 & -> & F1 & F2 & E1 & E2 & _ & _).
  pose proof (@fl_sub emin prec Hprec t1 t2 F1 F2) as R. unfold exact_variance.
  set (a := first_term T n inj) in *. set (b := second_term T n inj) in *.
  set (x := first_error _ _ _ _ _ _ _ _ _ * a) in *. set (y := second_error _ _ _ _ _ _ _ _ _ * b) in *.
  assert (D : Rabs ((t1 - t2) - (a - b)) <= x + y + 2 * eta).
  { replace ((t1 - t2) - (a - b)) with ((t1 - a) + - (t2 - b)) by ring.
    eapply Rle_trans; [apply Rabs_triang|]. rewrite Rabs_Ropp. lra. }
  assert (B : Rabs (t1 - t2) <= Rabs (a - b) + (x + y + 2 * eta)).
  { replace (t1 - t2) with ((a - b) + ((t1 - t2) - (a - b))) by ring. eapply Rle_trans; [apply Rabs_triang|]. lra. }
  assert (u * Rabs (t1 - t2) <= u * (Rabs (a - b) + (x + y + 2 * eta))) by (apply Rmult_le_compat_l; lra).
  replace (fl (t1 - t2) - (a - b)) with ((fl (t1 - t2) - (t1 - t2)) + ((t1 - t2) - (a - b))) by ring.
  eapply Rle_trans; [apply Rabs_triang|]. lra.
Qed.

Lemma second_le_first : forall T n inj, 0 < n ->
  second_term T n inj <= INR (length (kept inj)) / n * first_term T n inj.
Proof.
  intros T n inj Hn. unfold second_term, first_term.
  pose proof (sum_map_le_mult (weights inj) (length (kept inj)) ltac:(unfold weights; rewrite map_length; lia)) as C.
  assert (0 <= (T / n) ^ 2) by apply pow2_ge_0. assert (0 < / n) by (now apply Rinv_0_lt_compat).
  set (q := (T / n) ^ 2) in *. set (s2 := sum_of (map _ _)) in *.
  replace (INR (length (kept inj)) / n * (q * s2)) with (q * / n * (INR (length (kept inj)) * s2)) by (unfold Rdiv; ring).
  replace (q * sum_of (weights inj) ^ 2 / n) with (q * / n * sum_of (weights inj) ^ 2) by (unfold Rdiv; ring).
  apply Rmult_le_compat_l; [|exact C]. apply Rmult_le_pos; lra.
Qed.

Lemma variance_sign : forall N h W T n inj, good_row emin prec N W inj -> chains order N h ->
  sum_error u e eta N h < 1 -> 0 < T -> 0 < n -> flt T -> flt n ->
  INR (length (kept inj)) / n * (1 + second_error u e eta N h W T n inj) +
    first_error u e eta N h W T n inj + 2 * eta / first_term T n inj <= 1 ->
  0 <= fl_variance emin prec fexp flog order T n inj.
Proof.
  intros N h W T n inj G C Q HT Hn FT Fn H. pose proof u_pos as U.
  destruct (terms_ok N h W T n inj G C Q HT Hn FT Fn) as (t1 & t2 & -> & F1 & F2 & E1 & E2 & X1 & X2).
  assert (P2 : 0 < sum_of (map (fun w => w ^ 2) (weights inj))) by (rewrite squares; apply sum_exp_pos; apply G).
  assert (A : 0 < first_term T n inj).
  { unfold first_term. apply Rmult_lt_0_compat; [|exact P2]. apply pow_lt. now apply Rdiv_lt_0_compat. }
  pose proof (second_le_first T n inj Hn) as K.
  set (a := first_term T n inj) in *. set (b := second_term T n inj) in *.
  set (x := first_error _ _ _ _ _ _ _ _ _) in *. set (y := second_error _ _ _ _ _ _ _ _ _) in *.
  set (k := INR (length (kept inj)) / n) in *.
  apply Rabs_le_inv in E1, E2.
  assert (M : a * (k * (1 + y) + x + 2 * eta / a) <= a * 1) by (apply Rmult_le_compat_l; lra).
  replace (a * (k * (1 + y) + x + 2 * eta / a)) with (k * a * (1 + y) + x * a + 2 * eta) in M by (field; lra).
  assert (b * (1 + y) <= k * a * (1 + y)) by (apply Rmult_le_compat_r; lra).
  assert (D : 0 <= t1 - t2) by lra.
  unfold Model_Rounding.fl. rewrite <- (round_0 radix2 (FLT_exp emin prec) ZnearestE).
  apply round_le; [apply (@FLT_exp_valid emin prec Hprec)|apply valid_rnd_N|exact D].
Qed.

End Rate.

(** The size of a log sum of at most [N] exponentials *)
Lemma lse_size : forall (l : list sample) f N W, l <> [] -> (length l <= N)%nat -> 0 <= W ->
  (forall s, In s l -> Rabs (f s) <= W) ->
  Rabs (ln (sum_of (map (fun s => exp (f s)) l))) <= W + ln (INR N).
Proof.
  intros l f N W Ne Ln W0 H.
  assert (L1 : 1 <= INR (length l)) by (destruct l; [congruence|cbn [length]; rewrite S_INR; pose proof (pos_INR (length l)); lra]).
  pose proof (lse_lipschitz l f (fun _ => 0) W Ne) as L. cbv beta in L.
  replace (sum_of (map (fun _ : sample => exp 0) l)) with (INR (length l)) in L by (rewrite sum_const, exp_0; ring).
  assert (X : Rabs (ln (INR (length l))) <= ln (INR N)).
  { rewrite Rabs_pos_eq by (rewrite <- ln_1; apply ln_le_mono; lra). apply ln_le_mono; [lra|now apply le_INR]. }
  assert (L' : Rabs (ln (sum_of (map (fun s => exp (f s)) l)) - ln (INR (length l))) <= W).
  { apply L. intros s I. rewrite Rminus_0_r. now apply H. }
  set (A := ln (sum_of (map (fun s => exp (f s)) l))) in *. set (B := ln (INR (length l))) in *.
  replace A with ((A - B) + B) by ring. eapply Rle_trans; [apply Rabs_triang|]. lra.
Qed.

Lemma first_second_pos : forall T n inj, 0 < n -> 0 <= first_term T n inj /\ 0 <= second_term T n inj.
Proof.
  intros T n inj Hn. unfold first_term, second_term.
  assert (Q : 0 <= (T / n) ^ 2) by apply pow2_ge_0. assert (0 < / n) by (now apply Rinv_0_lt_compat).
  split.
  { apply Rmult_le_pos; [exact Q|]. induction (weights inj) as [|w l IH]; unfold sum_of in *; cbn [map fold_right]; [lra|].
    pose proof (pow2_ge_0 w). lra. }
  apply Rmult_le_pos; [|lra]. apply Rmult_le_pos; [exact Q|apply pow2_ge_0].
Qed.

(** Single precision, a million injections, log weights of at most 64 *)
Lemma single_sizes : forall (N : nat) (inj : list sample), INR N <= 2 ^ 20 -> good_row (-149) 24 N 64 inj ->
  let u := unit_roundoff 24 in let e := bpow radix2 (-22) in let eta := bpow radix2 (-149) in
  let l := ln (sum_of (weights inj)) in let l2 := ln (sum_of (map (fun w => w ^ 2) (weights inj))) in
  sum_error u e eta N 64 < 1 /\
  event_error u e eta N 64 64 l <= / 33500 /\
  event_error u e eta N 64 (2 * 64) l2 <= / 22000 /\
  Rabs l2 <= 148 /\ Rabs l <= 84.
Proof.
  intros N inj HN G u e eta l l2.
  assert (X : INR 64 = 64) by (rewrite INR_IZR_INZ; reflexivity).
  assert (X' : INR 20 = 20) by (rewrite INR_IZR_INZ; reflexivity).
  destruct (@good_facts (-149) 24 N 64 inj G) as [N1 _].
  assert (N1' : 1 <= INR N) by (apply le_INR in N1; exact N1).
  assert (LN : ln (INR N) <= 20).
  { apply Rle_trans with (ln (2 ^ 20)); [apply ln_le_mono; lra|]. rewrite ln_pow by lra. rewrite X'. pose proof ln_2_le_1. lra. }
  assert (SE : forall W L, 0 <= W -> sum_error u e eta N 64 < 1 /\ event_error u e eta N 64 W L <= / 90000 + bpow radix2 (-23) * (W + Rabs L)).
  { intros W L W0. apply (single_error W L N 64 20 (/ 262143) (/ 90000)); rewrite ?X, ?X'; try lra.
    unfold of_relative. lra. }
  destruct G as (Ln & Ne & G).
  assert (Lk : (length (kept inj) <= N)%nat).
  { eapply Nat.le_trans; [|exact Ln]. unfold kept. clear. induction inj as [|s k IH]; [reflexivity|]. simpl. destruct (s_mask s); simpl; lia. }
  assert (GW : forall s, In s (kept inj) -> Rabs (s_lp s - s_ref s) <= 64).
  { intros s I. unfold kept in I. apply filter_In in I. destruct I as [I M]. now apply G. }
  assert (B1 : Rabs l <= 64 + ln (INR N)) by (unfold l, weights; apply lse_size; [exact Ne|exact Lk|lra|exact GW]).
  assert (B2 : Rabs l2 <= 128 + ln (INR N)).
  { unfold l2. rewrite squares. apply (lse_size (kept inj) (fun s => 2 * (s_lp s - s_ref s))); [exact Ne|exact Lk|lra|].
    intros s I. rewrite Rabs_mult, (Rabs_pos_eq 2) by lra. specialize (GW s I). lra. }
  destruct (SE 64 l ltac:(lra)) as [Q D1]. destruct (SE (2 * 64) l2 ltac:(lra)) as [_ D2].
  replace (bpow radix2 (-23)) with (/ 8388608) in * by (simpl; lra).
  repeat split; lra.
Qed.
