From Coq Require Import Reals Lra Lia ZArith List Bool.
From Coquelicot Require Import Coquelicot.
From Verif Require Import Model_X Spec_X Proofs_X Model_Powerlaw Proofs_Powerlaw Spec_Density Proofs_Transform Proofs_Mass Proofs_Integral Proofs_Spin Model_Dirichlet.
Import ListNotations.
Open Scope R_scope.

Lemma collect_some kw cs : forall k i, (forall j, (i <= j < i + k)%nat -> kw j = Some (cs j)) ->
  collect kw i k = Some (map cs (seq i k)).
Proof.
  induction k as [|k IH]; intros i H; [reflexivity|]. cbn [collect seq map].
  rewrite (H i), IH by (intros; try apply H; lia). reflexivity.
Qed.
Lemma collect_none kw : forall k i j, (i <= j < i + k)%nat -> kw j = None -> collect kw i k = None.
Proof.
  induction k as [|k IH]; intros i j Hj H; [lia|]. cbn [collect].
  destruct (Nat.eq_dec i j) as [->|]; [now rewrite H|].
  rewrite (IH (S i) j) by (auto; lia). now destruct (kw i).
Qed.

Lemma element_some order n kw cs : (order < n - 1)%nat -> (forall i, (i < order)%nat -> kw i = Some (cs i)) ->
  dirichlet_element (Z.of_nat order) (Z.of_nat n) kw
  = Some (Elem (INR order) (INR n) (rsum (map cs (seq 0 order)))).
Proof.
  intros Ho H. unfold dirichlet_element. destruct (Z.ltb_spec (Z.of_nat order) 0); [lia|].
  destruct (Z.ltb_spec (Z.of_nat n) 2); [lia|]. rewrite Nat2Z.id, (collect_some kw cs) by (intros; apply H; lia).
  destruct (Z.eqb_spec (Z.of_nat order) (Z.of_nat n - 1)); [lia|].
  rewrite fold_left_rsum, Rplus_0_l, <- !INR_IZR_INZ. reflexivity.
Qed.
Lemma element_last n kw cs : (2 <= n)%nat -> (forall i, (i < n - 1)%nat -> kw i = Some (cs i)) ->
  dirichlet_element (Z.of_nat (n - 1)) (Z.of_nat n) kw
  = Some (Point (1 - rsum (map cs (seq 0 (n - 1))))).
Proof.
  intros Ho H. unfold dirichlet_element. destruct (Z.ltb_spec (Z.of_nat (n - 1)) 0); [lia|].
  destruct (Z.ltb_spec (Z.of_nat n) 2); [lia|]. rewrite Nat2Z.id, (collect_some kw cs) by (intros; apply H; lia).
  destruct (Z.eqb_spec (Z.of_nat (n - 1)) (Z.of_nat n - 1)); [|lia].
  rewrite fold_left_rsum, Rplus_0_l. reflexivity.
Qed.
Lemma map_nth_seq (l : list R) : forall pre, map (fun i => nth i (pre ++ l) 0) (seq (length pre) (length l)) = l.
Proof.
  induction l as [|x l IH]; intros pre; [reflexivity|]. cbn [length seq map]. f_equal.
  - rewrite app_nth2, Nat.sub_diag by lia. reflexivity.
  - specialize (IH (pre ++ [x])). rewrite app_length, <- app_assoc in IH. cbn [length app] in IH.
    rewrite Nat.add_1_r in IH. exact IH.
Qed.
Lemma element_prev_some prev n : (length prev < n - 1)%nat ->
  dirichlet_element (Z.of_nat (length prev)) (Z.of_nat n) (nth_error prev)
  = Some (Elem (INR (length prev)) (INR n) (rsum prev)).
Proof.
  intros H. rewrite (element_some _ _ _ (fun i => nth i prev 0)); auto.
  - f_equal. f_equal. f_equal. apply (map_nth_seq prev []).
  - intros i Hi. now apply nth_error_nth'.
Qed.
Lemma element_prev_last prev n : (2 <= n)%nat -> length prev = (n - 1)%nat ->
  dirichlet_element (Z.of_nat (length prev)) (Z.of_nat n) (nth_error prev) = Some (Point (1 - rsum prev)).
Proof.
  intros Hn H. rewrite H. rewrite (element_last _ _ (fun i => nth i prev 0)); auto.
  - f_equal. f_equal. f_equal. f_equal. rewrite <- H. apply (map_nth_seq prev []).
  - intros i Hi. apply nth_error_nth'. lia.
Qed.

(** the density *)
Lemma xlog1py_nat k y : 0 <= 1 + y -> fin_or_ninf (xlog1py (INR k) y) /\ wexp (xlog1py (INR k) y) = (1 + y) ^ k.
Proof.
  intros Hy. unfold xlog1py. destruct (Req_EM_T (INR k) 0) as [E|E].
  - destruct k as [|k]; [|rewrite S_INR in E; pose proof (pos_INR k); lra]. split; [exact I|]. simpl. apply exp_0.
  - assert (Hk : 0 < INR k) by (pose proof (pos_INR k); lra). destruct (Rle_lt_or_eq_dec _ _ Hy) as [P|P].
    + rewrite xln_pos by auto. rewrite xmul_fin. split; [exact I|]. cbn [wexp].
      rewrite <- Rpower_pow by auto. reflexivity.
    + rewrite <- P. rewrite xln_zero. cbn [xmul]. unfold xinf_times. destruct (Rlt_dec 0 (INR k)); [|lra].
      split; [exact I|]. cbn [wexp]. destruct k as [|k]; [simpl in E; lra|]. simpl. ring.
Qed.
Lemma xlog1py_fin k y : 0 < 1 + y -> xlog1py (INR k) y = Fin (INR k * ln (1 + y)).
Proof.
  intros Hy. unfold xlog1py. destruct (Req_EM_T (INR k) 0) as [E|E].
  - rewrite E, Rmult_0_l. reflexivity.
  - rewrite xln_pos, xmul_fin by auto. reflexivity.
Qed.

Section Element.
Variables (order n : nat) (s : R).
Hypothesis Ho : (order < n - 1)%nat.
Hypothesis Hs : s < 1.
Let c := (n - order - 1)%nat.
Let e := Elem (INR order) (INR n) s.

Lemma const_eq : INR n - INR order - 1 = INR c /\ INR n - INR order - 1 - 1 = INR (c - 1) /\ 1 <= INR c.
Proof.
  unfold c. assert (E : INR n - INR order - 1 = INR (n - order - 1)).
  { rewrite !minus_INR by lia. simpl. ring. }
  rewrite E. split; [reflexivity|]. split.
  - rewrite (minus_INR (n - order - 1) 1) by lia. reflexivity.
  - change 1 with (INR 1). apply le_INR. lia.
Qed.
Lemma element_density x : x <= 1 - s ->
  wexp (element_log_prob e x) = INR c * (1 - s - x) ^ (c - 1) / (1 - s) ^ c.
Proof.
  intros Hx. unfold e, element_log_prob. destruct const_eq as (E1 & E2 & E3). rewrite E2, E1. cbv zeta.
  rewrite (xlog1py_fin c (- s)) by lra. rewrite xln_pos by lra. rewrite xsub_fin.
  destruct (xlog1py_nat (c - 1) (- s - x) ltac:(lra)) as [A B].
  replace (1 + (- s - x)) with (1 - s - x) in B by ring. rewrite <- B.
  assert (P : 0 < (1 - s) ^ c) by (apply pow_lt; lra).
  assert (EP : exp (INR c * ln (1 + - s) - ln (INR c)) = (1 - s) ^ c / INR c).
  { replace (1 + - s) with (1 - s) by ring. unfold Rminus at 1. rewrite exp_plus, exp_Ropp, exp_ln by lra.
    rewrite <- Rpower_pow by lra. reflexivity. }
  destruct (xlog1py (INR (c - 1)) (- s - x)) as [r| | |]; simpl in A; try tauto.
  - rewrite xsub_fin. cbn [wexp]. unfold Rminus at 1. rewrite exp_plus, exp_Ropp, EP. field. lra.
  - cbn. unfold Rdiv. ring.
Qed.
Lemma element_cdf x : 0 <= x <= 1 - s ->
  is_RInt (fun t => wexp (element_log_prob e t)) 0 x (1 - (1 - s - x) ^ c / (1 - s) ^ c).
Proof.
  intros Hx. assert (P : 0 < (1 - s) ^ c) by (apply pow_lt; lra).
  apply (is_RInt_ext_R (fun t => INR c * (1 - s - t) ^ (c - 1) / (1 - s) ^ c)); [lra| |].
  { intros t Ht. symmetry. apply element_density. lra. }
  set (F := fun t : R => - ((1 - s - t) ^ c / (1 - s) ^ c)).
  assert (Hd : forall t : R, is_derive F t (INR c * (1 - s - t) ^ (c - 1) / (1 - s) ^ c)).
  { intros t. unfold F. auto_derive; [lra|]. replace (Init.Nat.pred c) with (c - 1)%nat by lia. change (1 - s + - t) with (1 - s - t). unfold Rdiv.
    generalize ((1 - s - t) ^ (c - 1)), (/ (1 - s) ^ c), (INR c). intros. ring. }
  replace (1 - (1 - s - x) ^ c / (1 - s) ^ c) with (F x - F 0).
  2:{ unfold F. rewrite Rminus_0_r. field. lra. }
  apply (is_RInt_derive F); [intros; apply Hd|].
  intros t _. apply (ex_derive_continuous (fun t : R => INR c * (1 - s - t) ^ (c - 1) / (1 - s) ^ c)).
  auto_derive. lra.
Qed.
Lemma element_normalised : integrates_to (element_log_prob e) 0 (1 - s) 1.
Proof.
  unfold integrates_to. pose proof (element_cdf (1 - s) ltac:(lra)) as H.
  replace (1 - s - (1 - s)) with 0 in H by ring. rewrite pow_i in H by (unfold c; lia).
  replace (1 - 0 / (1 - s) ^ c) with 1 in H by (unfold Rdiv; ring). exact H.
Qed.
End Element.

Lemma xpower_unit u (k : nat) : (1 <= k)%nat -> 0 <= u <= 1 ->
  exists v, xpower u (1 / INR k) = Fin v /\ 0 <= v <= 1 /\ v ^ k = u.
Proof.
  intros Hk [H0 H1]. assert (K : 1 <= INR k) by (change 1 with (INR 1); now apply le_INR).
  assert (P : 0 < 1 / INR k) by (apply Rdiv_lt_0_compat; lra). unfold xpower.
  destruct (Rlt_dec 0 u) as [Hu|Hu].
  - exists (Rpower u (1 / INR k)). split; [reflexivity|]. split.
    + split; [left; apply Rpower_pos|]. apply Rle_trans with (exp 0); [|rewrite exp_0; lra].
      unfold Rpower. assert (ln u <= 0) by (rewrite <- ln_1; apply ln_le; auto).
      assert (L : 1 / INR k * ln u <= 0) by nra. destruct L as [L|L]; [left; now apply exp_increasing|rewrite L; lra].
    + rewrite <- Rpower_pow by apply Rpower_pos. rewrite Rpower_mult.
      replace (1 / INR k * INR k) with 1 by (field; lra). now apply Rpower_1.
  - assert (u = 0) by lra. subst. destruct (Req_EM_T (1 / INR k) 0); [lra|]. destruct (Req_EM_T 0 0); [|lra].
    destruct (Rlt_dec 0 (1 / INR k)); [|lra]. exists 0. split; [reflexivity|]. split; [lra|]. apply pow_i. lia.
Qed.

Lemma sample_value order n s u : (order < n - 1)%nat -> s <= 1 -> 0 <= u <= 1 ->
  exists x, element_sample (Elem (INR order) (INR n) s) u = Fin x /\ 0 <= x <= 1 - s
    /\ (1 - s - x) ^ (n - order - 1) = (1 - s) ^ (n - order - 1) * u.
Proof.
  intros Ho Hs Hu. unfold element_sample. replace (INR n - INR order - 1) with (INR (n - order - 1)).
  2:{ rewrite !minus_INR by lia. simpl. ring. }
  destruct (xpower_unit u (n - order - 1) ltac:(lia) Hu) as (v & E & Hv & Ev). rewrite E.
  rewrite xsub_fin, xmul_fin. exists ((1 - s) * (1 - v)). split; [reflexivity|]. split; [nra|].
  replace (1 - s - (1 - s) * (1 - v)) with ((1 - s) * v) by ring. rewrite Rpow_mult_distr, Ev. reflexivity.
Qed.
Theorem sample_inverts order n s u : (order < n - 1)%nat -> s < 1 -> 0 <= u <= 1 ->
  exists x, element_sample (Elem (INR order) (INR n) s) u = Fin x /\ 0 <= x <= 1 - s
    /\ is_RInt (fun t => wexp (element_log_prob (Elem (INR order) (INR n) s) t)) 0 x (1 - u).
Proof.
  intros Ho Hs Hu. destruct (sample_value order n s u Ho ltac:(lra) Hu) as (x & E & Hx & Ex).
  exists x. split; auto. split; auto. pose proof (element_cdf order n s Ho Hs x Hx) as H. rewrite Ex in H.
  assert (P : 0 < (1 - s) ^ (n - order - 1)) by (apply pow_lt; lra).
  replace (1 - (1 - s) ^ (n - order - 1) * u / (1 - s) ^ (n - order - 1)) with (1 - u) in H by (field; lra). exact H.
Qed.

(** draws *)
Lemma draw_ok n : (2 <= n)%nat -> forall us prev, (length prev + length us = n)%nat -> us <> [] ->
  List.Forall (fun u => 0 <= u <= 1) us -> List.Forall (fun x => 0 <= x) prev -> rsum prev <= 1 ->
  exists xs, draw_all (Z.of_nat n) prev us = Some xs /\ length xs = n /\ List.Forall (fun x => 0 <= x) xs /\ rsum xs = 1.
Proof.
  intros Hn. induction us as [|u us IH]; intros prev HL Hne Hu Hp Hsum; [congruence|].
  cbn [draw_all]. cbn [length] in HL. pose proof (Forall_inv Hu) as Hu1. pose proof (Forall_inv_tail Hu) as Hu2. destruct us as [|u' us].
  - cbn [length] in *. rewrite element_prev_last by lia. cbn [element_sample draw_all].
    exists (prev ++ [1 - rsum prev]). split; [reflexivity|]. rewrite app_length, rsum_app. cbn [length rsum].
    split; [lia|]. split; [|ring]. apply Forall_app. split; auto. constructor; [lra|constructor].
  - cbn [length] in HL. rewrite element_prev_some by lia.
    destruct (sample_value (length prev) n (rsum prev) u ltac:(lia) Hsum Hu1) as (x & E & Hx & _). rewrite E.
    apply IH; auto.
    + rewrite app_length. cbn [length]. lia.
    + discriminate.
    + apply Forall_app. split; auto. constructor; [lra|constructor].
    + rewrite rsum_app. cbn [rsum]. lra.
Qed.

(** joint density *)
Lemma joint_ok n : (2 <= n)%nat -> forall xs prev last, (length prev + length xs + 1 = n)%nat ->
  List.Forall (fun x => 0 <= x) xs -> 0 < last -> rsum prev + rsum xs + last = 1 ->
  joint_log_prob (Z.of_nat n) prev (xs ++ [last])
  = Some (Fin (ln (INR (fact (length xs))) - INR (length xs) * ln (1 - rsum prev))).
Proof.
  intros Hn. induction xs as [|x xs IH]; intros prev last HL Hx Hl Hsum.
  - cbn [app joint_log_prob]. cbn [length rsum] in *. rewrite element_prev_last by lia. cbn [element_log_prob].
    destruct (Req_EM_T last (1 - rsum prev)) as [|N]; [|exfalso; apply N; lra]. cbn [xadd]. f_equal. f_equal.
    cbn [fact INR]. rewrite ln_1. ring.
  - cbn [app joint_log_prob]. cbn [length rsum] in *. pose proof (Forall_inv Hx) as Hx1. pose proof (Forall_inv_tail Hx) as Hx2. cbv beta in Hx1.
    pose proof (rsum_nonneg xs Hx2) as Hr. rewrite element_prev_some by lia.
    rewrite IH; auto.
    2:{ rewrite app_length. cbn [length]. lia. }
    2:{ rewrite rsum_app. cbn [rsum]. lra. }
    f_equal. unfold element_log_prob. destruct (const_eq (length prev) n ltac:(lia)) as (E1 & E2 & E3). rewrite E2, E1.
    cbv zeta. replace (n - length prev - 1)%nat with (S (length xs)) in * by lia.
    replace (S (length xs) - 1)%nat with (length xs) by lia.
    rewrite !xlog1py_fin by lra. rewrite xln_pos by lra. rewrite !xsub_fin. cbn [xadd]. f_equal.
    rewrite rsum_app. cbn [rsum]. replace (1 - (rsum prev + (x + 0))) with (1 + (- rsum prev - x)) by ring.
    replace (1 + - rsum prev) with (1 - rsum prev) by ring.
    rewrite fact_simpl, mult_INR, ln_mult by (apply lt_0_INR; pose proof (lt_O_fact (length xs)); lia). ring.
Qed.

Lemma order_unchecked order n kw cs v : (2 <= n)%nat -> (n <= order)%nat -> (forall i, (i < order)%nat -> kw i = Some (cs i)) ->
  exists e, dirichlet_element (Z.of_nat order) (Z.of_nat n) kw = Some e /\ element_log_prob e v = NaN.
Proof.
  intros Hn Ho H. unfold dirichlet_element. destruct (Z.ltb_spec (Z.of_nat order) 0); [lia|].
  destruct (Z.ltb_spec (Z.of_nat n) 2); [lia|]. rewrite Nat2Z.id, (collect_some kw cs) by (intros; apply H; lia).
  destruct (Z.eqb_spec (Z.of_nat order) (Z.of_nat n - 1)); [lia|]. eexists. split; [reflexivity|].
  unfold element_log_prob. rewrite <- !INR_IZR_INZ. pose proof (le_INR _ _ Ho) as HI.
  set (s := fold_left _ _ _). cbv zeta. set (k := INR n - INR order - 1). assert (Hk : k < 0) by (unfold k; lra).
  assert (E : xln (Fin k) = NaN).
  { unfold xln. destruct (Rlt_dec 0 k); [lra|]. destruct (Req_EM_T k 0); [lra|]. reflexivity. }
  rewrite E. unfold xsub at 2. cbn [xopp].
  assert (N1 : forall a, xadd a NaN = NaN) by (intros [| | |]; reflexivity).
  rewrite N1. unfold xsub. cbn [xopp]. apply N1.
Qed.

Lemma vertex_nan : joint_log_prob 3 [] [1; 0; 0] = Some NaN.
Proof.
  change 3%Z with (Z.of_nat 3). cbn [joint_log_prob app].
  rewrite (element_prev_some []), (element_prev_some [1]), (element_prev_last [1; 0]) by (simpl; lia).
  cbn [length rsum element_log_prob]. f_equal.
  unfold xlog1py. simpl INR.
  destruct (Req_EM_T (1 + 1 + 1 - 0 - 1 - 1) 0) as [E|_]; [lra|].
  destruct (Req_EM_T (1 + 1 + 1 - 0 - 1) 0) as [E|_]; [lra|].
  destruct (Req_EM_T (1 + 1 + 1 - 1 - 1 - 1) 0) as [_|E]; [|lra].
  destruct (Req_EM_T (1 + 1 + 1 - 1 - 1) 0) as [E|_]; [lra|].
  destruct (Req_EM_T 0 (1 - (1 + (0 + 0)))) as [_|E]; [|lra].
  replace (1 + (- 0 - 1)) with 0 by ring. replace (1 + - (1 + 0)) with 0 by ring. rewrite xln_zero.
  replace (1 + - 0) with 1 by ring. rewrite !xln_pos by lra. cbn [xmul]. unfold xinf_times.
  destruct (Rlt_dec 0 (1 + 1 + 1 - 0 - 1 - 1)) as [_|E]; [|lra].
  destruct (Rlt_dec 0 (1 + 1 + 1 - 1 - 1)) as [_|E]; [|lra]. reflexivity.
Qed.
Lemma vertex_drawn : draw_all 3 [] [0; 0; 0] = Some [1; 0; 0].
Proof.
  assert (P : forall e, 0 < e -> xpower 0 e = Fin 0).
  { intros e He. unfold xpower. destruct (Rlt_dec 0 0); [lra|]. destruct (Req_EM_T e 0); [lra|].
    destruct (Req_EM_T 0 0); [|lra]. destruct (Rlt_dec 0 e); [reflexivity|lra]. }
  change 3%Z with (Z.of_nat 3). cbn [draw_all app].
  rewrite (element_prev_some []) by (simpl; lia). cbn [element_sample length rsum]. simpl INR.
  rewrite P by lra. rewrite xsub_fin, xmul_fin. replace ((1 - 0) * (1 - 0)) with 1 by ring. cbn [app].
  rewrite (element_prev_some [1]) by (simpl; lia). cbn [element_sample length rsum]. simpl INR.
  rewrite P by lra. rewrite xsub_fin, xmul_fin. replace ((1 - (1 + 0)) * (1 - 0)) with 0 by ring. cbn [app].
  rewrite (element_prev_last [1; 0]) by (simpl; lia). cbn [element_sample rsum app]. repeat f_equal. ring.
Qed.
