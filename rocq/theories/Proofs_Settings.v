(** Lemmas for C117: a symmetric positive definite matrix has a Cholesky factor and an inverse. *)
From Coq Require Import String List Arith Bool ZArith Reals Lra Lia.
From Coquelicot Require Import Coquelicot.
From Verif Require Import Model_X Spec_X Model_FlowMC Spec_FlowMC Proofs_HMC Model_Settings Spec_Settings.
From Verif Require Import Spec_Invariance.
Import ListNotations.
Open Scope R_scope.

Lemma total_S n f : total (S n) f = total n f + f n.
Proof.
  unfold total. rewrite seq_S, map_app, fold_right_app. cbn. 
  generalize (map f (seq 0 n)). induction l as [|a l IH]; cbn; lra.
Qed.
Lemma total_O f : total 0 f = 0.
Proof. reflexivity. Qed.

(** forward substitution *)
Lemma forward n (L : nat -> nat -> R) b : (forall i j, (i < j)%nat -> L i j = 0) -> (forall i, (i < n)%nat -> 0 < L i i) ->
  exists y, forall i, (i < n)%nat -> total n (fun j => L i j * y j) = b i.
Proof.
  intros T. induction n as [|n IH]; intros D.
  - exists (fun _ => 0). intros i Hi. lia.
  - destruct IH as [y Hy]; [intros i Hi; apply D; lia|].
    exists (fun j => if (j =? n)%nat then (b n - total n (fun j => L n j * y j)) / L n n else y j).
    intros i Hi. rewrite total_S, Nat.eqb_refl.
    rewrite (total_ext n _ (fun j => L i j * y j)).
    2:{ intros j Hj. destruct (Nat.eqb_spec j n); [lia|reflexivity]. }
    destruct (Nat.eq_dec i n) as [->|Hn].
    + field. specialize (D n). lra || (assert (0 < L n n) by (apply D; lia); lra).
    + rewrite (Hy i) by lia. rewrite (T i n) by lia. ring.
Qed.
(** backward substitution *)
Lemma backward n (L : nat -> nat -> R) b : (forall i j, (i < j)%nat -> L i j = 0) -> (forall i, (i < n)%nat -> 0 < L i i) ->
  exists y, forall i, (i < n)%nat -> total n (fun j => L j i * y j) = b i.
Proof.
  intros T. revert b. induction n as [|n IH]; intros b D.
  - exists (fun _ => 0). intros i Hi. lia.
  - assert (Dn : 0 < L n n) by (apply D; lia).
    destruct (IH (fun i => b i - L n i * (b n / L n n))) as [y Hy]; [intros i Hi; apply D; lia|].
    exists (fun j => if (j =? n)%nat then b n / L n n else y j).
    intros i Hi. rewrite total_S, Nat.eqb_refl.
    rewrite (total_ext n _ (fun j => L j i * y j)).
    2:{ intros j Hj. destruct (Nat.eqb_spec j n); [lia|reflexivity]. }
    destruct (Nat.eq_dec i n) as [->|Hn].
    + rewrite total_zero by (intros j Hj; rewrite (T j n) by lia; ring). field. lra.
    + rewrite (Hy i) by lia. ring.
Qed.

Lemma form_of_factor n L M x : (forall i j, (i < n)%nat -> (j < n)%nat -> M i j = total n (fun k => L i k * L j k)) ->
  form n M x = total n (fun k => total n (fun i => L i k * x i) * total n (fun i => L i k * x i)).
Proof.
  intros H. unfold form.
  rewrite (total_ext n _ (fun i => total n (fun k => total n (fun j => x i * L i k * (L j k * x j))))).
  2:{ intros i Hi. rewrite total_swap. apply total_ext. intros j Hj. rewrite (H i j Hi Hj).
      rewrite (total_ext n (fun k => x i * L i k * (L j k * x j)) (fun k => (x i * x j) * (L i k * L j k))) by (intros; ring). rewrite total_scal. ring. }
  rewrite total_swap. apply total_ext. intros k Hk.
  rewrite (total_ext n _ (fun i => total n (fun i0 => L i0 k * x i0) * (L i k * x i))).
  2:{ intros i Hi. rewrite total_scal. ring. }
  now rewrite total_scal.
Qed.

Lemma form_S n M x : symmetric (S n) M ->
  form (S n) M x = form n M x + 2 * x n * total n (fun i => M n i * x i) + x n * x n * M n n.
Proof.
  intros S. unfold form. rewrite total_S. rewrite (total_ext n _ (fun i => total n (fun j => x i * M i j * x j) + x n * (M n i * x i))).
  2:{ intros i Hi. rewrite total_S. rewrite (S i n) by lia. ring. }
  rewrite total_plus, total_scal. rewrite total_S.
  rewrite (total_ext n (fun j => x n * M n j * x j) (fun j => x n * (M n j * x j))) by (intros; ring). rewrite total_scal. ring.
Qed.

Theorem cholesky_exists n M : symmetric n M -> positive_definite n M -> exists L, cholesky n M L.
Proof.
  induction n as [|n IH]; intros S P.
  { exists (fun _ _ => 0). split; [|split]; intros; try lia. reflexivity. }
  destruct IH as (L & T & D & F).
  { intros i j Hi Hj. apply S; lia. }
  { intros x (i & Hi & Hx).
    set (x' := fun j => if (j =? n)%nat then 0 else x j).
    assert (Q : 0 < form (Datatypes.S n) M x').
    { apply P. exists i. split; [lia|]. unfold x'. destruct (Nat.eqb_spec i n); [lia|exact Hx]. }
    rewrite form_S in Q by exact S. unfold x' in Q at 2 4 5. rewrite Nat.eqb_refl in Q.
    replace (form n M x') with (form n M x) in Q; [lra|].
    unfold form. apply total_ext. intros a Ha. apply total_ext. intros b Hb. unfold x'.
    destruct (Nat.eqb_spec a n), (Nat.eqb_spec b n); try lia; reflexivity. }
  destruct (forward n L (fun i => M n i) T D) as [y Hy].
  destruct (backward n L y T D) as [w Hw].
  set (s := M n n - total n (fun k => y k * y k)).
  assert (Ps : 0 < s).
  { set (x := fun j => if (j =? n)%nat then - (1) else w j).
    assert (Q : 0 < form (Datatypes.S n) M x).
    { apply P. exists n. split; [lia|]. unfold x. rewrite Nat.eqb_refl. lra. }
    rewrite form_S in Q by exact S. unfold x in Q at 2 4 5. rewrite Nat.eqb_refl in Q.
    replace (form n M x) with (form n M w) in Q.
    2:{ unfold form. apply total_ext. intros a Ha. apply total_ext. intros b Hb. unfold x.
        destruct (Nat.eqb_spec a n), (Nat.eqb_spec b n); try lia; reflexivity. }
    rewrite (form_of_factor n L M w F) in Q.
    rewrite (total_ext n (fun k => total n (fun i => L i k * w i) * total n (fun i => L i k * w i)) (fun k => y k * y k)) in Q.
    2:{ intros k Hk. now rewrite (Hw k Hk). }
    replace (total n (fun i => M n i * x i)) with (total n (fun k => y k * y k)) in Q; [unfold s; lra|].
    symmetry. transitivity (total n (fun i => M n i * w i)).
    { apply total_ext. intros i Hi. unfold x. destruct (Nat.eqb_spec i n); [lia|reflexivity]. }
    rewrite (total_ext n _ (fun i => total n (fun j => y j * (L i j * w i)))).
    2:{ intros i Hi. rewrite <- (Hy i Hi). rewrite Rmult_comm, <- total_scal. apply total_ext. intros; ring. }
    rewrite total_swap. apply total_ext. intros k Hk. rewrite total_scal, (Hw k Hk). reflexivity. }
  exists (fun i j => if (i =? n)%nat then (if (j <? n)%nat then y j else if (j =? n)%nat then sqrt s else 0)
                     else if (j =? n)%nat then 0 else L i j).
  split; [|split].
  - intros i j Hij. destruct (Nat.eqb_spec i n) as [->|Hi].
    + destruct (Nat.ltb_spec j n); [lia|]. destruct (Nat.eqb_spec j n); [lia|reflexivity].
    + destruct (Nat.eqb_spec j n); [reflexivity|now apply T].
  - intros i Hi. destruct (Nat.eqb_spec i n) as [->|Hn].
    + rewrite Nat.ltb_irrefl. now apply sqrt_lt_R0.
    + apply D. lia.
  - intros i j Hi Hj. rewrite total_S, Nat.ltb_irrefl, Nat.eqb_refl.
    destruct (Nat.eqb_spec i n) as [->|Hin], (Nat.eqb_spec j n) as [->|Hjn].
    + rewrite (total_ext n _ (fun k => y k * y k)).
      2:{ intros k Hk. destruct (Nat.ltb_spec k n); [reflexivity|lia]. }
      rewrite sqrt_sqrt by lra. unfold s. ring.
    + rewrite (total_ext n _ (fun k => L j k * y k)).
      2:{ intros k Hk. destruct (Nat.ltb_spec k n); [|lia]. destruct (Nat.eqb_spec k n); [lia|ring]. }
      rewrite (Hy j) by lia. ring.
    + rewrite (total_ext n _ (fun k => L i k * y k)).
      2:{ intros k Hk. destruct (Nat.ltb_spec k n); [|lia]. destruct (Nat.eqb_spec k n); [lia|ring]. }
      rewrite (Hy i) by lia. rewrite (S i n) by lia. ring.
    + rewrite (F i j) by lia. rewrite Rmult_0_l, Rplus_0_r. apply total_ext. intros k Hk.
      destruct (Nat.eqb_spec k n); [lia|reflexivity].
Qed.

Lemma inverse_exists n M L : cholesky n M L -> exists Minv, right_inverse n M Minv.
Proof.
  intros (T & D & F).
  assert (H : forall j, exists c, forall i, (i < n)%nat -> total n (fun k => M i k * c k) = if Nat.eqb i j then 1 else 0).
  { intros j. destruct (forward n L (fun i => if Nat.eqb i j then 1 else 0) T D) as [y Hy].
    destruct (backward n L y T D) as [c Hc]. exists c. intros i Hi. rewrite <- (Hy i Hi).
    rewrite (total_ext n _ (fun k => total n (fun m => L i m * (L k m * c k)))).
    2:{ intros k Hk. rewrite (F i k Hi Hk), Rmult_comm, <- total_scal. apply total_ext. intros; ring. }
    rewrite total_swap. apply total_ext. intros m Hm. rewrite total_scal, (Hc m Hm). reflexivity. }
  assert (G : forall m, exists C : nat -> nat -> R, forall i j, (i < n)%nat -> (j < m)%nat -> total n (fun k => M i k * C k j) = if Nat.eqb i j then 1 else 0).
  { induction m as [|m [C HC]].
    - exists (fun _ _ => 0). intros; lia.
    - destruct (H m) as [c Hc]. exists (fun k j => if (j =? m)%nat then c k else C k j). intros i j Hi Hj.
      destruct (Nat.eqb_spec j m) as [->|Hm]; [now apply Hc|apply HC; lia]. }
  destruct (G n) as [C HC]. exists C. exact HC.
Qed.

Lemma diagonal_definite n d : (forall i, (i < n)%nat -> 0 < d i) ->
  symmetric n (fun i j => if (i =? j)%nat then d i else 0)
  /\ positive_definite n (fun i j => if (i =? j)%nat then d i else 0).
Proof.
  intros D. split.
  - intros i j _ _. destruct (Nat.eqb_spec i j) as [->|N].
    + now rewrite Nat.eqb_refl.
    + destruct (Nat.eqb_spec j i); [congruence|reflexivity].
  - intros x (i & Hi & Hx). unfold form.
    rewrite (total_ext n _ (fun i => d i * (x i * x i))).
    2:{ intros a Ha. rewrite (total_single n a) by exact Ha. rewrite Nat.eqb_refl, total_zero; [ring|].
        intros b Hb. destruct (Nat.eqb_spec b a); [reflexivity|]. destruct (Nat.eqb_spec a b); [congruence|ring]. }
    clear - D Hi Hx. induction n as [|n IH]; [lia|]. rewrite total_S.
    assert (N : forall m, (m <= n)%nat -> 0 <= total m (fun i => d i * (x i * x i))).
    { induction m as [|m IHm]; intros Hm; [rewrite total_O; lra|]. rewrite total_S.
      specialize (IHm ltac:(lia)). assert (0 < d m) by (apply D; lia). nra. }
    assert (Pn : 0 < d n) by (apply D; lia). destruct (Nat.eq_dec i n) as [->|Hn].
    + specialize (N n ltac:(lia)). assert (0 < x n * x n) by nra. nra.
    + assert (0 < total n (fun i => d i * (x i * x i))) by (apply IH; [intros; apply D; lia|lia]). nra.
Qed.
