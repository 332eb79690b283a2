(** C137: the expected rate and its variance in floating-point arithmetic. *)
From Coq Require Import Reals List ZArith Permutation Lra Lia.
From Flocq Require Import Core.
From Verif Require Import Model_Rounding Spec_Rounding Proofs_Rounding Proofs_Rate.
Import ListNotations.
Open Scope R_scope.

(** The expected rate from injections, in any precision, for any order of summation, any number
    of injections and any library functions of bounded error. *)
Theorem C137_rate :
  forall (emin prec : Z) (e eta : R) (fexp flog : R -> R) (order : list R -> tree)
         (N h : nat) (W T n : R) (inj : list sample),
  (0 < prec)%Z -> 0 <= e -> 0 <= eta ->
  accurate emin prec e eta (fun _ => True) exp fexp ->
  accurate emin prec e eta (fun x => 0 < x) ln flog ->
  adds_up order -> chains order N h -> good_row emin prec N W inj -> 0 <= T -> 0 < n ->
  let u := unit_roundoff prec in
  sum_error u e eta N h < 1 ->
  let tiny := / 2 * bpow radix2 emin in
  let d := event_error u e eta N h W (ln (sum_of (weights inj))) in
  Rabs (fl_expected_rate emin prec fexp flog order T n inj - exact_rate T n inj) <=
    ((1 + u) ^ 2 * (1 + exp_error e d) - 1) * exact_rate T n inj +
    (1 + u) * ((1 + u) * (T * eta) + tiny) / n + tiny.
Proof.
  intros emin prec e eta fexp flog order N h W T n inj Hp He Hn Ee El Ho Hc G HT Hnn u Q tiny d.
  exact (@rate_error emin prec Hp e eta fexp flog order He Hn Ee El Ho N h W T n inj G Hc Q HT Hnn).
Qed.
Print Assumptions C137_rate.

(** With no injection of positive density the rate and its variance are zero. *)
Theorem C137_none : forall (emin prec : Z) (fexp flog : R -> R) (order : list R -> tree) (T n : R) (inj : list sample),
  (forall s, In s inj -> s_mask s = false) ->
  fl_expected_rate emin prec fexp flog order T n inj = 0 /\
  fl_variance emin prec fexp flog order T n inj = 0.
Proof.
  intros emin prec fexp flog order T n inj H.
  assert (K : kept inj = []).
  { unfold kept. induction inj as [|s inj IH]; [reflexivity|]. cbn [filter]. rewrite (H s (or_introl eq_refl)).
    apply IH. intros; apply H; now right. }
  split; [now apply rate_none|now apply variance_none].
Qed.
Print Assumptions C137_none.

(** The variance of the estimate: relative errors of its two terms, not of their difference. *)
Theorem C137_variance :
  forall (emin prec : Z) (e eta : R) (fexp flog : R -> R) (order : list R -> tree)
         (N h : nat) (W T n : R) (inj : list sample),
  (0 < prec)%Z -> 0 <= e -> 0 <= eta ->
  accurate emin prec e eta (fun _ => True) exp fexp ->
  accurate emin prec e eta (fun x => 0 < x) ln flog ->
  adds_up order -> chains order N h -> good_row emin prec N W inj ->
  0 < T -> 0 < n -> is_float emin prec T -> is_float emin prec n ->
  let u := unit_roundoff prec in
  sum_error u e eta N h < 1 ->
  Rabs (fl_variance emin prec fexp flog order T n inj - exact_variance T n inj) <=
    (1 + u) * (first_error u e eta N h W T n inj * first_term T n inj +
               second_error u e eta N h W T n inj * second_term T n inj + 2 * eta) +
    u * Rabs (exact_variance T n inj).
Proof.
  intros emin prec e eta fexp flog order N h W T n inj Hp He Hn Ee El Ho Hc G HT Hnn FT Fn u Q.
  exact (@variance_error emin prec Hp e eta fexp flog order He Hn Ee El Ho N h W T n inj G Hc Q HT Hnn FT Fn).
Qed.
Print Assumptions C137_variance.

(** It is not negative if the share of the injections that were found stays away from one by
    more than the errors. *)
Theorem C137_sign :
  forall (emin prec : Z) (e eta : R) (fexp flog : R -> R) (order : list R -> tree)
         (N h : nat) (W T n : R) (inj : list sample),
  (0 < prec)%Z -> 0 <= e -> 0 <= eta ->
  accurate emin prec e eta (fun _ => True) exp fexp ->
  accurate emin prec e eta (fun x => 0 < x) ln flog ->
  adds_up order -> chains order N h -> good_row emin prec N W inj ->
  0 < T -> 0 < n -> is_float emin prec T -> is_float emin prec n ->
  let u := unit_roundoff prec in
  sum_error u e eta N h < 1 ->
  INR (length (kept inj)) / n * (1 + second_error u e eta N h W T n inj) +
    first_error u e eta N h W T n inj + 2 * eta / first_term T n inj <= 1 ->
  0 <= fl_variance emin prec fexp flog order T n inj.
Proof.
  intros emin prec e eta fexp flog order N h W T n inj Hp He Hn Ee El Ho Hc G HT Hnn FT Fn u Q H.
  exact (@variance_sign emin prec Hp e eta fexp flog order He Hn Ee El Ho N h W T n inj G Hc Q HT Hnn FT Fn H).
Qed.
Print Assumptions C137_sign.

(** Single precision, library functions good to four units in the last place, up to a million
    injections found and chains of at most 64 additions, log weights of at most 64: the rate is
    right to one part in 30000, unless it underflows. *)
Theorem C137_single :
  forall (fexp flog : R -> R) (order : list R -> tree) (N : nat) (T n : R) (inj : list sample),
  let e := bpow radix2 (-22) in let eta := bpow radix2 (-149) in
  INR N <= 2 ^ 20 ->
  accurate (-149) 24 e eta (fun _ => True) exp fexp ->
  accurate (-149) 24 e eta (fun x => 0 < x) ln flog ->
  adds_up order -> chains order N 64 -> good_row (-149) 24 N 64 inj -> 0 <= T -> 0 < n ->
  Rabs (fl_expected_rate (-149) 24 fexp flog order T n inj - exact_rate T n inj) <=
    / 30000 * exact_rate T n inj + 2 * (T + n + 1) / n * eta.
Proof.
  intros fexp flog order N T n inj e eta HN Ee El Ho Hc G HT Hn.
  destruct (single_sizes N inj HN G) as (Q & D & _ & _). fold e eta in Q, D.
  eapply Rle_trans.
  { apply (C137_rate (-149) 24 e eta fexp flog order N 64 64 T n inj); try assumption; try lia; try apply bpow_ge_0. }
  cbv zeta. set (d := event_error _ _ _ _ _ _ _) in *.
  assert (Eu : unit_roundoff 24 = / 16777216) by (unfold unit_roundoff; simpl; lra). rewrite Eu.
  assert (Ee' : e = / 4194304) by (unfold e; simpl; lra).
  assert (M0 : 0 <= exact_rate T n inj).
  { unfold exact_rate. assert (0 < / n) by (now apply Rinv_0_lt_compat).
    pose proof (weights_pos inj ltac:(apply G)). apply Rmult_le_pos; [apply Rmult_le_pos|]; lra. }
  assert (ED : exp d <= 1 + / 33000).
  { eapply Rle_trans; [apply exp_le_inv; lra|]. 
    assert (/ (1 - d) <= / (1 - / 33500)) by (apply Rinv_le_contravar; lra). lra. }
  assert (X : (1 + / 16777216) ^ 2 * (1 + exp_error e d) - 1 <= / 30000).
  { unfold exp_error. rewrite Ee'. pose proof (exp_pos d).
    assert ((1 + / 16777216) ^ 2 * ((1 + / 4194304) * exp d) <= (1 + / 16777216) ^ 2 * ((1 + / 4194304) * (1 + / 33000))).
    { apply Rmult_le_compat_l; [simpl; lra|]. apply Rmult_le_compat_l; lra. }
    replace (1 + ((1 + / 4194304) * exp d - 1)) with ((1 + / 4194304) * exp d) by ring. simpl in *. lra. }
  set (x := (1 + / 16777216) ^ 2 * (1 + exp_error e d) - 1) in *. clearbody x.
  assert (x * exact_rate T n inj <= / 30000 * exact_rate T n inj) by (now apply Rmult_le_compat_r).
  assert (E0 : 0 <= eta) by apply bpow_ge_0. fold eta.
  assert (Y : (1 + / 16777216) * ((1 + / 16777216) * (T * eta) + / 2 * eta) <= 2 * (T + 1) * eta).
  { assert (0 <= T * eta) by (now apply Rmult_le_pos). lra. }
  assert (I0 : 0 < / n) by (now apply Rinv_0_lt_compat).
  assert (Y2 : (1 + / 16777216) * ((1 + / 16777216) * (T * eta) + / 2 * eta) / n <= 2 * (T + 1) * eta / n) by (apply Rmult_le_compat_r; lra).
  replace (2 * (T + n + 1) / n * eta) with (2 * (T + 1) * eta / n + 2 * eta) by (field; lra). lra.
Qed.
Print Assumptions C137_single.

(** And the terms of the variance, for analysis times and numbers of injections of at most
    e^16 and e^32, are right to one part in 7000; so the variance is not negative when at most
    999 of 1000 injections were found. *)
Theorem C137_single_variance :
  forall (fexp flog : R -> R) (order : list R -> tree) (N : nat) (T n : R) (inj : list sample),
  let e := bpow radix2 (-22) in let eta := bpow radix2 (-149) in
  INR N <= 2 ^ 20 ->
  accurate (-149) 24 e eta (fun _ => True) exp fexp ->
  accurate (-149) 24 e eta (fun x => 0 < x) ln flog ->
  adds_up order -> chains order N 64 -> good_row (-149) 24 N 64 inj ->
  0 < T -> 0 < n -> is_float (-149) 24 T -> is_float (-149) 24 n ->
  Rabs (ln T) <= 16 -> Rabs (ln n) <= 32 ->
  let v := fl_variance (-149) 24 fexp flog order T n inj in
  Rabs (v - exact_variance T n inj) <= / 7000 * (first_term T n inj + second_term T n inj) + 4 * eta /\
  (INR (length (kept inj)) <= 999 / 1000 * n -> bpow radix2 (-130) <= first_term T n inj -> 0 <= v).
Proof.
  intros fexp flog order N T n inj e eta HN Ee El Ho Hc G HT Hn FT Fn BT Bn v.
  destruct (single_sizes N inj HN G) as (Q & D & D2 & S1 & S2). fold e eta in Q, D, D2.
  assert (Eu : unit_roundoff 24 = / 16777216) by (unfold unit_roundoff; simpl; lra).
  assert (Ee' : e = / 4194304) by (unfold e; simpl; lra).
  assert (E0 : 0 <= eta) by apply bpow_ge_0.
  assert (E1 : eta <= / 1000000000000).
  { unfold eta. apply Rle_trans with (bpow radix2 (-40)); [apply bpow_le; lia|simpl; lra]. }
  pose proof (Rabs_pos (ln T)) as AT0. pose proof (Rabs_pos (ln n)) as An0.
  assert (LT : 0 <= lib_error e eta T <= / 262144 + / 1000000000000).
  { unfold lib_error. rewrite Ee'. split; lra. }
  assert (Ln : 0 <= lib_error e eta n <= / 131072 + / 1000000000000).
  { unfold lib_error. rewrite Ee'. split; lra. }
  set (l2 := ln (sum_of (map (fun w => w ^ 2) (weights inj)))) in *.
  set (l := ln (sum_of (weights inj))) in *.
  assert (T1 : Rabs (2 * ln T - 2 * ln n) <= 96).
  { apply Rabs_le. apply Rabs_le_inv in BT, Bn. lra. }
  assert (T2 : Rabs (2 * ln T - 3 * ln n) <= 128).
  { apply Rabs_le. apply Rabs_le_inv in BT, Bn. lra. }
  assert (T3 : Rabs (2 * ln T - 2 * ln n + l2) <= 244) by (eapply Rle_trans; [apply Rabs_triang|]; lra).
  assert (T4 : Rabs (2 * ln T - 3 * ln n + 2 * l) <= 296).
  { eapply Rle_trans; [apply Rabs_triang|]. rewrite (Rabs_mult 2 l), (Rabs_pos_eq 2) by lra. lra. }
  assert (DD : forall x, x <= / 8000 -> exp_error e x <= / 7500).
  { intros x Hx. unfold exp_error. rewrite Ee'.
    assert (exp x <= 1 + / 7900).
    { eapply Rle_trans; [apply exp_le_inv; lra|]. assert (/ (1 - x) <= / (1 - / 8000)) by (apply Rinv_le_contravar; lra). lra. }
    pose proof (exp_pos x). assert ((1 + / 4194304) * exp x <= (1 + / 4194304) * (1 + / 7900)) by (apply Rmult_le_compat_l; lra). lra. }
  assert (F1 : first_error (unit_roundoff 24) e eta N 64 64 T n inj <= / 7500).
  { unfold first_error. fold l2. cbv zeta. apply DD. unfold first_log_error, chain_error. cbv zeta.
    rewrite Eu in *. lra. }
  assert (F2 : second_error (unit_roundoff 24) e eta N 64 64 T n inj <= / 7500).
  { unfold second_error. fold l. cbv zeta. apply DD. unfold second_log_error, chain_error. cbv zeta.
    rewrite Eu in *. lra. }
  destruct (first_second_pos T n inj Hn) as [P1 P2]. 
  split.
  { eapply Rle_trans.
    { apply (C137_variance (-149) 24 e eta fexp flog order N 64 64 T n inj); try assumption; try lia; apply bpow_ge_0. }
    cbv zeta. set (f1 := first_error _ _ _ _ _ _ _ _ _) in *. set (f2 := second_error _ _ _ _ _ _ _ _ _) in *.
    assert (f1 * first_term T n inj <= / 7500 * first_term T n inj) by (now apply Rmult_le_compat_r).
    assert (f2 * second_term T n inj <= / 7500 * second_term T n inj) by (now apply Rmult_le_compat_r).
    assert (Rabs (exact_variance T n inj) <= first_term T n inj + second_term T n inj).
    { unfold exact_variance. apply Rabs_le. lra. }
    rewrite Eu in *. lra. }
  intros K B.
  apply (C137_sign (-149) 24 e eta fexp flog order N 64 64 T n inj); try assumption; try lia; try apply bpow_ge_0.
  set (f1 := first_error _ _ _ _ _ _ _ _ _) in *. set (f2 := second_error _ _ _ _ _ _ _ _ _) in *.
  assert (0 < / n) by (now apply Rinv_0_lt_compat).
  assert (K1 : INR (length (kept inj)) / n <= 999 / 1000).
  { apply Rmult_le_reg_r with n; [lra|]. unfold Rdiv at 1. rewrite Rmult_assoc, Rinv_l by lra. lra. }
  assert (K0 : 0 <= INR (length (kept inj)) / n) by (apply Rmult_le_pos; [apply pos_INR|lra]).
  assert (Z : 2 * eta / first_term T n inj <= / 100000).
  { pose proof (bpow_gt_0 radix2 (-130)). apply Rmult_le_reg_r with (first_term T n inj); [lra|].
    unfold Rdiv. rewrite Rmult_assoc, Rinv_l by lra.
    assert (eta = bpow radix2 (-130) * bpow radix2 (-19)) by (rewrite <- bpow_plus; reflexivity).
    assert (bpow radix2 (-19) = / 524288) by (simpl; lra). nra. }
  assert (INR (length (kept inj)) / n * (1 + f2) <= 999 / 1000 * (1 + / 7500)).
  { apply Rle_trans with (INR (length (kept inj)) / n * (1 + / 7500)); [apply Rmult_le_compat_l; lra|apply Rmult_le_compat_r; lra]. }
  lra.
Qed.
Print Assumptions C137_single_variance.

(** Two of ten injections found, and one of zero density. *)
Example C137_nonvacuous :
  let inj := [mksample (-3) 2 true; mksample 100 0 false; mksample 1 (-1) true] in
  let from_left := fun l : list R => fold_left (fun t x => Node t (Leaf x)) l (Leaf 0) in
  let fexp := fun x => fl (-149) 24 (exp x) in let flog := fun x => fl (-149) 24 (ln x) in
  Rabs (fl_expected_rate (-149) 24 fexp flog from_left 2 10 inj - 2 * (exp (-5) + exp 2) / 10) <= / 10000 /\
  0 <= fl_variance (-149) 24 fexp flog from_left 2 10 inj.
Proof.
  intros inj from_left fexp flog.
  assert (FI : forall z, (Z.abs z <= 1000)%Z -> is_float (-149) 24 (IZR z)).
  { intros z Hz. apply generic_format_FLT. exists (Float radix2 z 0).
    { unfold F2R. simpl. ring. } { simpl. lia. } { simpl. lia. } }
  assert (G : good_row (-149) 24 3 64 inj).
  { split; [simpl; lia|]. split; [discriminate|].
    intros s [<-|[<-|[<-|[]]]]; simpl; intros M; try discriminate.
    { split; [apply (FI (-3)%Z); lia|]. split; [apply (FI 2%Z); lia|]. rewrite Rabs_left; lra. }
    { split; [apply (FI 1%Z); lia|]. split; [apply (FI (-1)%Z); lia|]. rewrite Rabs_right; lra. } }
  assert (FS : forall l t, leaves (fold_left (fun t x => Node t (Leaf x)) l t) = (leaves t ++ l)%list /\
      depth (fold_left (fun t x => Node t (Leaf x)) l t) = (depth t + length l)%nat).
  { induction l as [|x l IH]; intros t. { simpl. rewrite app_nil_r. split; [reflexivity|lia]. }
    cbn [fold_left]. destruct (IH (Node t (Leaf x))) as [A B]. rewrite A, B. cbn [leaves depth length].
    rewrite <- app_assoc. split; [reflexivity|lia]. }
  assert (AU : adds_up from_left).
  { intros l. exists 1%nat. destruct (FS l (Leaf 0)) as [A _]. unfold from_left. rewrite A.
    simpl. rewrite Permutation_app_comm. simpl. reflexivity || apply Permutation_cons_append. }
  assert (CH : chains from_left 3 64).
  { intros l L. destruct (FS l (Leaf 0)) as [_ D]. unfold from_left. rewrite D. simpl. lia. }
  assert (HN : INR 3 <= 2 ^ 20) by (simpl; lra).
  assert (AC : forall f dom, accurate (-149) 24 (bpow radix2 (-22)) (bpow radix2 (-149)) dom f (fun x => fl (-149) 24 (f x))).
  { intros f dom x F Dx. destruct (@correct_accurate (-149) 24 ltac:(reflexivity) dom f x F Dx) as [A B].
    split; [exact A|]. eapply Rle_trans; [exact B|].
    assert (unit_roundoff 24 <= bpow radix2 (-22)) by (unfold unit_roundoff; apply bpow_le; lia).
    pose proof (Rabs_pos (f x)). pose proof (bpow_ge_0 radix2 (-149)).
    assert (unit_roundoff 24 * Rabs (f x) <= bpow radix2 (-22) * Rabs (f x)) by (now apply Rmult_le_compat_r). lra. }
  assert (EW : sum_of (weights inj) = exp (-5) + exp 2).
  { unfold weights, inj, kept, sum_of. simpl. rewrite Rplus_0_r. f_equal; f_equal; ring. }
  assert (X5 : 0 < exp (-5) < 1) by (split; [apply exp_pos|rewrite <- exp_0; apply exp_increasing; lra]).
  assert (X2 : 3 <= exp 2 <= 9).
  { split; [pose proof (exp_ineq1_le 2); lra|]. replace 2 with (1 + 1) by ring. rewrite exp_plus.
    pose proof exp_le_3. pose proof (exp_pos 1). nra. }
  assert (E1 : bpow radix2 (-149) <= / 1000000000000).
  { apply Rle_trans with (bpow radix2 (-40)); [apply bpow_le; lia|simpl; lra]. }
  split.
  { pose proof (C137_single fexp flog from_left 3 2 10 inj HN (AC exp _) (AC ln _) AU CH G ltac:(lra) ltac:(lra)) as B.
    unfold exact_rate in B. rewrite EW in B. eapply Rle_trans; [exact B|]. lra. }
  destruct (C137_single_variance fexp flog from_left 3 2 10 inj HN (AC exp _) (AC ln _) AU CH G ltac:(lra) ltac:(lra)
     (FI 2%Z ltac:(lia)) (FI 10%Z ltac:(lia))) as [_ S].
  { rewrite Rabs_pos_eq by (rewrite <- ln_1; apply ln_le_mono; lra). pose proof ln_2_le_1. lra. }
  { rewrite Rabs_pos_eq by (rewrite <- ln_1; apply ln_le_mono; lra).
    apply Rle_trans with (ln (2 ^ 4)); [apply ln_le_mono; simpl; lra|]. rewrite ln_pow by lra. pose proof ln_2_le_1. simpl. lra. }
  apply S.
  { simpl. lra. }
  apply Rle_trans with (bpow radix2 (-5)); [apply bpow_le; lia|].
  unfold first_term, weights, inj, kept, sum_of. simpl.
  replace (1 - -1) with 2 by ring. set (a := exp (-3 - 2)) in *. nra.
Qed.
Print Assumptions C137_nonvacuous.
