(** C134, C135: the likelihood and logsubexp in floating-point arithmetic. *)
From Coq Require Import Reals List ZArith Permutation Lra Lia.
From Flocq Require Import Core.
From Verif Require Import Model_Rounding Spec_Rounding Proofs_Rounding.
Import ListNotations.
Open Scope R_scope.

(** ** C134 *)

(** Whatever the order in which XLA adds: the sum of floats is off by at most the growth of as
    many roundings as the longest chain of additions has, relative to the sum of the sizes. *)
Theorem C134_sum : forall (emin prec : Z) (t : tree), (0 < prec)%Z ->
  List.Forall (is_float emin prec) (leaves t) ->
  Rabs (fl_sum emin prec t - sum_of (leaves t)) <=
    growth (unit_roundoff prec) (depth t) * sum_of (map Rabs (leaves t)).
Proof.
  intros emin prec t Hp F. now apply (@tree_error emin prec Hp).
Qed.
Print Assumptions C134_sum.

(** Two orders of the same entries differ by no more than both may be off. *)
Theorem C134_order : forall (emin prec : Z) (s t : tree), (0 < prec)%Z ->
  List.Forall (is_float emin prec) (leaves s) -> Permutation (leaves s) (leaves t) ->
  Rabs (fl_sum emin prec s - fl_sum emin prec t) <=
    (growth (unit_roundoff prec) (depth s) + growth (unit_roundoff prec) (depth t)) *
      sum_of (map Rabs (leaves s)).
Proof.
  intros emin prec s t Hp F P.
  assert (F' : List.Forall (is_float emin prec) (leaves t)).
  { apply Forall_forall. intros x X. rewrite Forall_forall in F. apply F. now apply Permutation_in with (1 := Permutation_sym P). }
  pose proof (C134_sum emin prec s Hp F) as A. pose proof (C134_sum emin prec t Hp F') as B.
  rewrite <- (sum_of_perm _ _ P), <- (sum_of_perm _ _ (Permutation_map Rabs P)) in B.
  replace (fl_sum emin prec s - fl_sum emin prec t)
    with ((fl_sum emin prec s - sum_of (leaves s)) + - (fl_sum emin prec t - sum_of (leaves s))) by ring.
  eapply Rle_trans; [apply Rabs_triang|]. rewrite Rabs_Ropp. lra.
Qed.
Print Assumptions C134_order.

(** Growth is the number of roundings times their size, up to higher order. *)
Theorem C134_growth : forall (u : R) (h : nat), 0 <= u -> INR h * u < 1 ->
  INR h * u <= growth u h <= (INR h * u) / (1 - INR h * u).
Proof.
  intros u h Hu H. split; [|now apply growth_le]. unfold growth. clear H.
  induction h as [|h IH]; [simpl; lra|]. rewrite S_INR. simpl.
  pose proof (pos_INR h). assert (0 <= INR h * u) by (now apply Rmult_le_pos). nra.
Qed.
Print Assumptions C134_growth.

(** The likelihood returns -inf exactly when some event has no sample left: no underflow of the
    weights and no order of summation makes it so. *)
Theorem C134_minus_infinity : forall (emin prec : Z) fexp flog order log_prior log_constants rates bs,
  fl_posterior emin prec fexp flog order log_prior log_constants rates bs = None <->
  exists row, In row (concat bs) /\ forall s, In s row -> s_mask s = false.
Proof.
  intros. rewrite posterior_none.
  assert (K : forall row, kept row = [] <-> forall s, In s row -> s_mask s = false).
  { intros row. unfold kept. split.
    { intros K s I. destruct (s_mask s) eqn:M; [|reflexivity].
      assert (X : In s (filter s_mask row)) by (apply filter_In; split; assumption). rewrite K in X. contradiction. }
    intros H. destruct (filter s_mask row) as [|s k] eqn:K; [reflexivity|].
    assert (X : In s (filter s_mask row)) by (rewrite K; now left). apply filter_In in X. destruct X as [X M].
    rewrite (H s X) in M. discriminate. }
  split; intros (row & I & H); exists row; (split; [exact I|]); now apply K.
Qed.
Print Assumptions C134_minus_infinity.

(** The log posterior, in any precision, for any order of summation, any number of buckets,
    events and samples, and any library functions of bounded error. *)
Theorem C134_posterior :
  forall (emin prec : Z) (e eta : R) (fexp flog : R -> R) (order : list R -> tree)
         (N h : nat) (W : R) (bs : list (list (list sample))) (log_prior log_constants rates : R),
  (0 < prec)%Z -> 0 <= e -> 0 <= eta ->
  accurate emin prec e eta (fun x => x <= 0) exp fexp ->
  accurate emin prec e eta (fun x => 0 < x) ln flog ->
  adds_up order -> chains order N h ->
  (forall b, In b bs -> (length b <= N)%nat /\ forall row, In row b -> good_row emin prec N W row) ->
  is_float emin prec log_prior -> is_float emin prec log_constants -> is_float emin prec rates ->
  let u := unit_roundoff prec in
  sum_error u e eta N h < 1 ->
  exists y, fl_posterior emin prec fexp flog order log_prior log_constants rates bs = Some y /\
    Rabs (y - exact_posterior log_prior log_constants rates bs) <=
      sum_of (map (fun row => event_error u e eta N h W (exact_term row)) (concat bs)) +
      growth u (h + length bs + 2) *
        (Rabs log_prior + Rabs log_constants + Rabs rates +
         sum_of (map (fun row => Rabs (exact_term row) + event_error u e eta N h W (exact_term row))
                     (concat bs))).
Proof.
  intros emin prec e eta fexp flog order N h W bs lp lc rates Hp He Hn Ee El Ho Hc G Fp Fc Fr u Q.
  exact (@posterior_error emin prec Hp e eta fexp flog order He Hn Ee El Ho N h W bs lp lc rates Hc G Fp Fc Fr Q).
Qed.
Print Assumptions C134_posterior.

(** Single precision, library functions good to four units in the last place, at most 4096
    samples in an event, added in any way, one after the other if need be: the term of an event
    is right to 1/4000, but for the rounding of its own size and that of the log weights. *)
Theorem C134_single :
  forall (fexp flog : R -> R) (order : list R -> tree) (W : R) (row : list sample),
  let e := bpow radix2 (-22) in let eta := bpow radix2 (-149) in
  accurate (-149) 24 e eta (fun x => x <= 0) exp fexp ->
  accurate (-149) 24 e eta (fun x => 0 < x) ln flog ->
  adds_up order -> chains order 4096 4096 -> good_row (-149) 24 4096 W row ->
  exists y, fl_logsumexp (-149) 24 fexp flog order (map (fl_log_prob (-149) 24) row) = Some y /\
    Rabs (y - exact_term row) <= / 4000 + bpow radix2 (-23) * (W + Rabs (exact_term row)).
Proof.
  intros fexp flog order W row e eta Ee El Ho Hc G.
  assert (X : INR 4096 = 4096) by (rewrite INR_IZR_INZ; reflexivity).
  assert (X' : INR 12 = 12) by (rewrite INR_IZR_INZ; reflexivity).
  apply (single_event fexp flog order W row 4096 4096 12 (/ 4094) (/ 4000)); try assumption.
  { rewrite X. lra. } { rewrite X. split; [lra|]. simpl. lra. } { rewrite X. unfold of_relative. lra. }
  { rewrite X'. lra. } { lra. } { rewrite X'. lra. }
Qed.
Print Assumptions C134_single.

(** A million samples, added in chains of at most 64 additions (pairwise summation has 20):
    right to 1/90000, but for the same. *)
Theorem C134_single_million :
  forall (fexp flog : R -> R) (order : list R -> tree) (N : nat) (W : R) (row : list sample),
  let e := bpow radix2 (-22) in let eta := bpow radix2 (-149) in
  INR N <= 2 ^ 20 ->
  accurate (-149) 24 e eta (fun x => x <= 0) exp fexp ->
  accurate (-149) 24 e eta (fun x => 0 < x) ln flog ->
  adds_up order -> chains order N 64 -> good_row (-149) 24 N W row ->
  exists y, fl_logsumexp (-149) 24 fexp flog order (map (fl_log_prob (-149) 24) row) = Some y /\
    Rabs (y - exact_term row) <= / 90000 + bpow radix2 (-23) * (W + Rabs (exact_term row)).
Proof.
  intros fexp flog order N W row e eta HN Ee El Ho Hc G.
  assert (X : INR 64 = 64) by (rewrite INR_IZR_INZ; reflexivity).
  assert (1 <= INR N).
  { destruct G as (Ln & Ne & _). destruct row as [|s row]; [now contradiction Ne|].
    apply le_INR in Ln. simpl length in Ln. rewrite S_INR in Ln. pose proof (pos_INR (length row)). lra. }
  assert (X' : INR 20 = 20) by (rewrite INR_IZR_INZ; reflexivity).
  apply (single_event fexp flog order W row N 64 20 (/ 262143) (/ 90000)); try assumption.
  { rewrite X. lra. } { split; [assumption|]. exact HN. } { rewrite X. unfold of_relative. lra. }
  { rewrite X'. lra. } { lra. } { rewrite X'. lra. }
Qed.
Print Assumptions C134_single_million.

(** The hypotheses can be met: correctly rounded functions, and adding from the left. *)
Definition from_left (l : list R) : tree := fold_left (fun t x => Node t (Leaf x)) l (Leaf 0).

Lemma from_left_spec : forall l t, 
  leaves (fold_left (fun t x => Node t (Leaf x)) l t) = (leaves t ++ l)%list /\
  depth (fold_left (fun t x => Node t (Leaf x)) l t) = (depth t + length l)%nat.
Proof.
  induction l as [|x l IH]; intros t. { simpl. rewrite app_nil_r. split; [reflexivity|lia]. }
  cbn [fold_left]. destruct (IH (Node t (Leaf x))) as [A B]. rewrite A, B. cbn [leaves depth length].
  rewrite <- app_assoc. split; [reflexivity|lia].
Qed.

Example C134_nonvacuous :
  let row := [mksample (-3) 2 true; mksample 100 0 false; mksample 1 (-1) true] in
  exists y, fl_posterior (-149) 24 (fun x => fl (-149) 24 (exp x)) (fun x => fl (-149) 24 (ln x))
              from_left (-1) (-2) 3 [[row; row]; [row]] = Some y /\
    Rabs (y - (-1 + (-2 + 3 * ln (exp (-5) + exp 2) - 3))) <= / 1000.
Proof.
  intros row.
  assert (FI : forall z, (Z.abs z <= 1000)%Z -> is_float (-149) 24 (IZR z)).
  { intros z Hz. apply generic_format_FLT. exists (Float radix2 z 0).
    { unfold F2R. simpl. ring. } { simpl. lia. } { simpl. lia. } }
  assert (GR : good_row (-149) 24 4096 5 row).
  { split; [simpl; lia|]. split; [discriminate|].
    intros s [<-|[<-|[<-|[]]]]; simpl; intros M; try discriminate.
    { split; [apply (FI (-3)%Z); lia|]. split; [apply (FI 2%Z); lia|]. rewrite Rabs_left; lra. }
    { split; [apply (FI 1%Z); lia|]. split; [apply (FI (-1)%Z); lia|]. rewrite Rabs_right; lra. } }
  assert (AU : adds_up from_left).
  { intros l. exists 1%nat. destruct (from_left_spec l (Leaf 0)) as [A _]. unfold from_left. rewrite A.
    simpl. rewrite Permutation_app_comm. simpl. reflexivity || apply Permutation_cons_append. }
  assert (CH : chains from_left 4096 4096).
  { intros l L. destruct (from_left_spec l (Leaf 0)) as [_ D]. unfold from_left. rewrite D. simpl. lia. }
  set (u := unit_roundoff 24). set (eta := / 2 * bpow radix2 (-149)).
  assert (Eu : u = / 16777216) by (unfold u, unit_roundoff; simpl; lra).
  assert (Et : 0 <= eta <= / 1000000000000).
  { unfold eta. pose proof (bpow_ge_0 radix2 (-149)). split; [lra|].
    assert (bpow radix2 (-149) <= bpow radix2 (-40)) by (apply bpow_le; lia). simpl (bpow radix2 (-40)) in *. lra. }
  assert (X : INR 4 = 4) by (simpl; lra).
  assert (CH4 : chains from_left 4 4).
  { intros l L. destruct (from_left_spec l (Leaf 0)) as [_ D]. unfold from_left. rewrite D. simpl. lia. }
  assert (GR4 : good_row (-149) 24 4 5 row). { destruct GR as (_ & B & C). split; [simpl; lia|]. now split. }
  assert (G4 : 0 <= growth u 4 <= / 4000000).
  { split; [apply growth_pos; lra|]. eapply Rle_trans; [apply growth_le; rewrite ?X; lra|].
    rewrite X, Eu. unfold of_relative. lra. }
  assert (L : 0 <= ln (INR 4) <= 3).
  { rewrite X. split. { rewrite <- ln_1. left. apply ln_increasing; lra. }
    rewrite <- (ln_exp 3). left. apply ln_increasing; [lra|].
    replace 3 with (1 + (1 + 1)) by ring. rewrite !exp_plus. pose proof (exp_ineq1_le 1). nra. }
  assert (WE : 0 <= weight_error u u eta 4 <= / 3000000).
  { split; [apply weight_error_nonneg; lra|]. eapply Rle_trans; [apply weight_error_le with (l := 3); lra|].
    rewrite X, Eu. lra. }
  assert (SE : 0 <= sum_error u u eta 4 4 <= / 1000000).
  { unfold sum_error. set (g := growth u 4) in *. clearbody g. set (w := weight_error _ _ _ _) in *. clearbody w.
    split; [nra|]. assert (g * (1 + w) <= / 4000000 * (1 + / 3000000)) by (apply Rmult_le_compat; lra). lra. }
  destruct (C134_posterior (-149) 24 u eta (fun x => fl (-149) 24 (exp x)) (fun x => fl (-149) 24 (ln x))
     from_left 4 4 5 [[row; row]; [row]] (-1) (-2) 3) as (y & Ey & B).
  { lia. } { lra. } { lra. }
  { apply (@correct_accurate (-149) 24 ltac:(reflexivity)). }
  { apply (@correct_accurate (-149) 24 ltac:(reflexivity)). }
  { exact AU. } { exact CH4. }
  { intros b [<-|[<-|[]]]; (split; [simpl; lia|]).
    { intros r [<-|[<-|[]]]; exact GR4. } intros r [<-|[]]; exact GR4. }
  { apply (FI (-1)%Z); lia. } { apply (FI (-2)%Z); lia. } { apply (FI 3%Z); lia. }
  { fold u. lra. }
  exists y. split; [exact Ey|].
  assert (ET : exact_term row = ln (exp (-5) + exp 2)).
  { unfold exact_term, row, kept, sum_of. simpl. f_equal. rewrite Rplus_0_r. f_equal; f_equal; ring. }
  assert (EP : exact_posterior (-1) (-2) 3 [[row; row]; [row]] = -1 + (-2 + 3 * ln (exp (-5) + exp 2) - 3)).
  { unfold exact_posterior. cbn [concat app map]. unfold sum_of. cbn [fold_right]. rewrite ET. ring. }
  rewrite EP in B. cbv zeta in B. fold u in B. eapply Rle_trans; [exact B|]. cbn [concat app map length]. unfold sum_of. cbn [fold_right].
  assert (L0 : 0 <= exact_term row <= 3).
  { rewrite ET. pose proof (exp_pos (-5)). pose proof (exp_ineq1_le 2). split.
    { rewrite <- ln_1. left. apply ln_increasing; lra. }
    rewrite <- (ln_exp 3). left. apply ln_increasing; [lra|].
    assert (exp (-5) < 1) by (rewrite <- exp_0; apply exp_increasing; lra).
    replace 3 with (1 + 2) by ring. rewrite exp_plus. pose proof (exp_ineq1_le 1). nra. }
  assert (R : 0 <= of_relative (sum_error u u eta 4 4) <= / 900000).
  { pose proof (of_relative_mono (sum_error u u eta 4 4) (/ 1000000) SE ltac:(lra)) as M.
    unfold of_relative at 3 in M. lra. }
  assert (LE : 0 <= log_error u u eta 4 4 <= / 100000).
  { unfold log_error. set (r := of_relative _) in *. clearbody r. rewrite Eu in *. lra. }
  assert (EE : 0 <= event_error u u eta 4 4 5 (exact_term row) <= / 10000).
  { unfold event_error. set (le := log_error _ _ _ _ _) in *. clearbody le.
    rewrite (Rabs_pos_eq (exact_term row)) by lra. set (t := exact_term row) in *. clearbody t.
    rewrite Eu in *. lra. }
  set (ee := event_error _ _ _ _ _ _ _) in *. clearbody ee.
  assert (G8 : 0 <= growth u (4 + 2 + 2) <= / 1000000).
  { split; [apply growth_pos; lra|]. assert (X8 : INR (4 + 2 + 2) = 8) by (simpl; lra).
    eapply Rle_trans; [apply growth_le; rewrite ?X8; lra|]. rewrite X8, Eu. unfold of_relative. lra. }
  rewrite (Rabs_pos_eq (exact_term row)) by lra.
  rewrite (Rabs_left (-1)), (Rabs_left (-2)), (Rabs_pos_eq 3) by lra.
  set (t := exact_term row) in *. clearbody t. set (g := growth u (4 + 2 + 2)) in *. clearbody g.
  assert (g * (- -1 + - -2 + 3 + (t + ee + (t + ee + (t + ee + 0)))) <= / 1000000 * 20) by (apply Rmult_le_compat; lra).
  lra.
Qed.
Print Assumptions C134_nonvacuous.

(** ** C135 *)

(** The error of logsubexp: the errors of exp and of the subtraction, divided by
    1 - exp (b - a), and those of log1p and of the addition. *)
Theorem C135_error :
  forall (emin prec : Z) (e eta : R) (fexp flog1p : R -> R) (a b : R),
  (0 < prec)%Z -> 0 <= e -> 0 <= eta ->
  accurate emin prec e eta (fun x => x <= 0) exp fexp ->
  accurate emin prec e eta (fun x => -1 < x) (fun x => ln (1 + x)) flog1p ->
  is_float emin prec a -> is_float emin prec b -> b < a ->
  let u := unit_roundoff prec in
  let q := (u + e + eta) / (1 - exp (b - a)) in
  q < 1 ->
  exists y, fl_logsubexp emin prec fexp flog1p a b = Num y /\
    let bound := of_relative q + e * (Rabs (ln (1 - exp (b - a))) + of_relative q) + eta in
    Rabs (y - ln (exp a - exp b)) <= bound + u * (Rabs (ln (exp a - exp b)) + bound).
Proof.
  intros emin prec e eta fexp flog1p a b Hp He Hn Ee El Fa Fb L u q Q.
  exact (@logsubexp_error emin prec Hp e eta fexp flog1p He Hn Ee El a b Fa Fb L Q).
Qed.
Print Assumptions C135_error.

(** With a correctly rounded exp, arguments closer than half the unit roundoff give -inf,
    though log (exp a - exp b) is a number unless they are equal. *)
Theorem C135_cancels : forall (emin prec : Z) (flog1p : R -> R) (a b : R),
  (0 < prec)%Z -> (emin <= - prec - 1)%Z ->
  is_float emin prec a -> is_float emin prec b ->
  0 <= a - b <= unit_roundoff prec / 2 ->
  fl_logsubexp emin prec (fun x => fl emin prec (exp x)) flog1p a b = MinusInf.
Proof.
  intros emin prec flog1p a b Hp He Fa Fb D.
  apply (@logsubexp_cancels emin prec Hp He flog1p a b Fa Fb); [lra|].
  replace (- prec - 1)%Z with (- prec + -1)%Z by ring. rewrite bpow_plus. unfold unit_roundoff in D.
  simpl (bpow radix2 (-1)). lra.
Qed.
Print Assumptions C135_cancels.

(** For a <= b, where the logarithm does not exist or is -inf, no number is returned. *)
Theorem C135_no_number : forall (emin prec : Z) (flog1p : R -> R) (a b : R),
  (0 < prec)%Z -> (emin <= - prec - 1)%Z ->
  is_float emin prec a -> is_float emin prec b -> a <= b ->
  forall y, fl_logsubexp emin prec (fun x => fl emin prec (exp x)) flog1p a b <> Num y.
Proof.
  intros emin prec flog1p a b Hp He Fa Fb L.
  exact (@logsubexp_not_positive emin prec Hp He flog1p a b Fa Fb L).
Qed.
Print Assumptions C135_no_number.

(** "In a numerically stable way" is not so: no bound on the error, however large, holds for
    all pairs of floats a > b. *)
Theorem C135_stable_refuted : forall (emin prec : Z) (flog1p : R -> R),
  (0 < prec)%Z -> (emin <= - prec - 1)%Z ->
  ~ exists bound, forall a b, is_float emin prec a -> is_float emin prec b -> b < a ->
      exists y, fl_logsubexp emin prec (fun x => fl emin prec (exp x)) flog1p a b = Num y /\
        Rabs (y - ln (exp a - exp b)) <= bound.
Proof.
  intros emin prec flog1p Hp He (bound & H).
  assert (P := bpow_gt_0 radix2 (- prec - 1)).
  assert (Fa : is_float emin prec (bpow radix2 (- prec - 1))).
  { apply (@power_float emin prec Hp). lia. }
  assert (Fb : is_float emin prec 0) by apply generic_format_0.
  destruct (H (bpow radix2 (- prec - 1)) 0 Fa Fb P) as (y & E & _).
  rewrite C135_cancels in E; [discriminate|exact Hp|exact He|exact Fa|exact Fb|].
  replace (- prec - 1)%Z with (- prec + -1)%Z in * by ring. rewrite bpow_plus in *. unfold unit_roundoff.
  simpl (bpow radix2 (-1)) in *. pose proof (bpow_gt_0 radix2 (- prec)). lra.
Qed.
Print Assumptions C135_stable_refuted.

(** log (e^1 - e^0) in single precision: a number, right to one part in a thousand. *)
Example C135_nonvacuous :
  exists y, fl_logsubexp (-149) 24 (fun x => fl (-149) 24 (exp x))
      (fun x => fl (-149) 24 (ln (1 + x))) 1 0 = Num y /\ Rabs (y - ln (exp 1 - 1)) <= / 1000.
Proof.
  set (u := unit_roundoff 24). set (eta := / 2 * bpow radix2 (-149)).
  assert (Eu : u = / 16777216) by (unfold u, unit_roundoff; simpl; lra).
  assert (Et : 0 <= eta <= / 1000000000000).
  { unfold eta. pose proof (bpow_ge_0 radix2 (-149)). split; [lra|].
    assert (bpow radix2 (-149) <= bpow radix2 (-40)) by (apply bpow_le; lia). simpl (bpow radix2 (-40)) in *. lra. }
  assert (S : / 2 <= 1 - exp (0 - 1) <= 1).
  { replace (0 - 1) with (- (1)) by ring. rewrite exp_Ropp. pose proof (exp_ineq1_le 1).
    assert (/ exp 1 <= / 2) by (apply Rinv_le_contravar; lra).
    assert (0 < / exp 1) by (apply Rinv_0_lt_compat; lra). lra. }
  assert (Q : 0 <= (u + u + eta) / (1 - exp (0 - 1)) <= / 2000000).
  { split. { apply Rmult_le_pos; [lra|]. left. apply Rinv_0_lt_compat. lra. }
    apply Rmult_le_reg_r with (1 - exp (0 - 1)); [lra|]. unfold Rdiv. rewrite Rmult_assoc, Rinv_l by lra.
    rewrite Eu. lra. }
  destruct (C135_error (-149) 24 u eta (fun x => fl (-149) 24 (exp x)) (fun x => fl (-149) 24 (ln (1 + x))) 1 0)
    as (y & Ey & B).
  { lia. } { lra. } { lra. }
  { apply (@correct_accurate (-149) 24 ltac:(reflexivity)). }
  { apply (@correct_accurate (-149) 24 ltac:(reflexivity) _ (fun x => ln (1 + x))). }
  { change 1 with (bpow radix2 0). apply (@power_float (-149) 24 ltac:(reflexivity)). lia. }
  { apply generic_format_0. } { lra. } { fold u. lra. }
  exists y. split; [exact Ey|]. fold u in B. cbv zeta in B. rewrite exp_0 in B.
  eapply Rle_trans; [exact B|].
  assert (R : 0 <= of_relative ((u + u + eta) / (1 - exp (0 - 1))) <= / 1000000).
  { pose proof (of_relative_mono _ (/ 2000000) Q ltac:(lra)) as M. unfold of_relative at 3 in M. lra. }
  set (r := of_relative _) in *. clearbody r.
  assert (L : Rabs (ln (1 - exp (0 - 1))) <= 1).
  { apply Rabs_le. split.
    { rewrite <- (ln_exp (- (1))). assert (exp (- (1)) <= / 2).
      { rewrite exp_Ropp. pose proof (exp_ineq1_le 1). apply Rinv_le_contravar; lra. }
      pose proof (exp_pos (- (1))).
      destruct (Rle_lt_or_eq_dec (exp (- (1))) (1 - exp (0 - 1))) as [H1|H1]; [lra|left; apply ln_increasing; lra|right; now rewrite H1]. }
    apply Rle_trans with (ln 1); [|rewrite ln_1; lra].
    destruct S as [Slo S]. destruct S as [S|S]; [left; apply ln_increasing; [|exact S]|right; now rewrite S].
    lra. }
  assert (L2 : Rabs (ln (exp 1 - 1)) <= 1).
  { pose proof (exp_ineq1_le 1). assert (exp 1 <= 3) by (apply exp_le_3).
    rewrite Rabs_pos_eq.
    { apply Rle_trans with (ln (exp 1)); [left; apply ln_increasing; lra|rewrite ln_exp; lra]. }
    destruct (Rle_lt_or_eq_dec 1 (exp 1 - 1)) as [H1|H1]; [lra|rewrite <- ln_1; left; apply ln_increasing; lra|rewrite <- H1, ln_1; lra]. }
  set (s := Rabs (ln (1 - exp (0 - 1)))) in *. pose proof (Rabs_pos (ln (1 - exp (0 - 1)))) as s0. fold s in s0. clearbody s.
  set (t := Rabs (ln (exp 1 - 1))) in *. pose proof (Rabs_pos (ln (exp 1 - 1))) as t0. fold t in t0. clearbody t.
  rewrite Eu in *.
  assert (0 <= r + / 16777216 * (s + r) + eta <= / 100000) by lra. lra.
Qed.
Print Assumptions C135_nonvacuous.

Example C135_cancels_nonvacuous :
  is_float (-149) 24 (bpow radix2 (-26)) /\ is_float (-149) 24 0 /\
  0 <= bpow radix2 (-26) - 0 <= unit_roundoff 24 / 2 /\ 0 < exp (bpow radix2 (-26)) - exp 0.
Proof.
  split; [apply (@power_float (-149) 24 ltac:(reflexivity)); lia|]. split; [apply generic_format_0|].
  split; [unfold unit_roundoff; simpl; lra|].
  assert (exp 0 < exp (bpow radix2 (-26))) by (apply exp_increasing, bpow_gt_0). lra.
Qed.
Print Assumptions C135_cancels_nonvacuous.
