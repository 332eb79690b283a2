(** Lemmas for C118-C120. *)
From Coq Require Import String List Arith Bool ZArith Reals Lra Lia Permutation Sorting.Sorted FunctionalExtensionality.
From Verif Require Import Model_X Spec_X Model_Guru Model_Mass Model_PPD Model_Settings Model_Scripts Spec_Invariance
  Model_FlowMC Spec_FlowMC Spec_Scripts.
Import ListNotations.
Open Scope R_scope.

(** ** quantiles *)
Lemma insert_perm x l : Permutation (x :: l) (insert x l).
Proof.
  induction l as [|y t IH]; cbn [insert]; [apply Permutation_refl|].
  destruct (Rle_dec x y); [apply Permutation_refl|].
  eapply Permutation_trans; [apply perm_swap|]. now apply perm_skip.
Qed.
Lemma sort_perm l : Permutation l (sort l).
Proof.
  induction l as [|x t IH]; [constructor|]. cbn [sort fold_right].
  eapply Permutation_trans; [apply perm_skip, IH|]. apply insert_perm.
Qed.
Lemma insert_sorted x l : StronglySorted Rle l -> StronglySorted Rle (insert x l).
Proof.
  induction 1 as [|y t Hs IH Hf]; cbn [insert]; [repeat constructor|].
  destruct (Rle_dec x y) as [Hxy|Hxy].
  - constructor; [now constructor|]. constructor; [exact Hxy|].
    apply Forall_forall. intros z Hz. rewrite Forall_forall in Hf. specialize (Hf z Hz). lra.
  - constructor; [exact IH|]. apply Forall_forall. intros z Hz.
    apply (Permutation_in z (Permutation_sym (insert_perm x t))) in Hz. rewrite Forall_forall in Hf.
    destruct Hz as [<-|Hz]; [lra|now apply Hf].
Qed.
Lemma sort_sorted l : StronglySorted Rle (sort l).
Proof. induction l as [|x t IH]; [constructor|]. cbn [sort fold_right]. now apply insert_sorted. Qed.
Lemma sorted_nth l : StronglySorted Rle l -> forall i j, (i <= j)%nat -> (j < length l)%nat -> nth i l 0 <= nth j l 0.
Proof.
  induction 1 as [|y t Hs IH Hf]; intros i j Hij Hj; [cbn in Hj; lia|].
  destruct j as [|j]; [replace i with 0%nat by lia; lra|]. cbn in Hj. destruct i as [|i]; cbn [nth].
  - rewrite Forall_forall in Hf. apply Hf. apply nth_In. lia.
  - apply IH; lia.
Qed.

Lemma floor_facts h : 0 <= h -> INR (Z.to_nat (Int_part h)) <= h < INR (Z.to_nat (Int_part h)) + 1.
Proof.
  intros H. destruct (base_Int_part h) as [B1 B2].
  assert (0 <= Int_part h)%Z.
  { apply le_IZR. cut (IZR (-1) < IZR (Int_part h)); [|lra]. intros L. apply lt_IZR in L. apply IZR_le. lia. }
  rewrite INR_IZR_INZ, Z2Nat.id by lia. lra.
Qed.
Section Quantile.
Variables (l : list R) (q : R).
Hypothesis (Hl : l <> []) (Hq : 0 <= q <= 1).
Lemma len_pos : 1 <= INR (length l).
Proof. destruct l as [|x t]; [congruence|]. cbn [length]. rewrite S_INR. pose proof (pos_INR (length t)). lra. Qed.
Lemma virtual_range : 0 <= (INR (length l) - 1) * q <= INR (length l) - 1.
Proof. pose proof len_pos. split; [apply Rmult_le_pos; lra|]. rewrite <- (Rmult_1_r (INR (length l) - 1)) at 2. apply Rmult_le_compat_l; lra. Qed.
Lemma quantile_spec : is_quantile q l (quantile l q).
Proof.
  pose proof virtual_range as V. pose proof len_pos as N.
  destruct (floor_facts _ (proj1 V)) as [F1 F2]. unfold quantile. set (h := (INR (length l) - 1) * q) in *.
  set (k := Z.to_nat (Int_part h)) in *.
  assert (K : (k < length l)%nat) by (apply INR_lt; lra).
  exists (sort l), k, (h - INR k). split; [apply sort_perm|]. split; [apply sort_sorted|]. split; [exact K|].
  split; [lra|]. split; [unfold h; lra|].
  destruct (Nat.eq_dec (S k) (length l)) as [E|E].
  - assert (G : h - INR k = 0). { rewrite <- E, S_INR in V. lra. }
    split; [now left|]. rewrite G. lra.
  - split; [right; lia|]. rewrite Nat.min_l by lia. lra.
Qed.
End Quantile.

Lemma sorted_unique l l' : StronglySorted Rle l -> StronglySorted Rle l' -> Permutation l l' -> l = l'.
Proof.
  intros H. revert l'. induction H as [|x t Hs IH Hf]; intros l' H' P.
  - apply Permutation_nil in P. now subst.
  - destruct l' as [|y t']; [apply Permutation_sym, Permutation_nil in P; discriminate|].
    inversion H' as [|? ? Hs' Hf']; subst. rewrite Forall_forall in Hf, Hf'.
    assert (Exy : x = y).
    { assert (Ix : In x (y :: t')) by (apply (Permutation_in x P); now left).
      assert (Iy : In y (x :: t)) by (apply (Permutation_in y (Permutation_sym P)); now left).
      destruct Ix as [->|Ix]; [reflexivity|]. destruct Iy as [->|Iy]; [reflexivity|].
      specialize (Hf' x Ix). specialize (Hf y Iy). lra. }
    subst y. f_equal. apply IH; [exact Hs'|]. eapply Permutation_cons_inv. exact P.
Qed.
Lemma quantile_unique q l v w : is_quantile q l v -> is_quantile q l w -> v = w.
Proof.
  intros (s & k & g & P & S & K & G & E & B & V) (s' & k' & g' & P' & S' & K' & G' & E' & B' & W).
  assert (s = s') by (apply sorted_unique; auto; eapply Permutation_trans; [apply Permutation_sym, P|exact P']). subst s'.
  assert (Hk : k = k').
  { destruct (Nat.lt_trichotomy k k') as [L|[L|L]]; auto; exfalso; apply lt_INR in L || idtac.
    - assert (k + 1 <= k')%nat by (apply INR_lt in L; lia). apply le_INR in H. rewrite plus_INR in H. cbn in H. lra.
    - assert (k' + 1 <= k)%nat by (apply INR_lt in L; lia). apply le_INR in H. rewrite plus_INR in H. cbn in H. lra. }
  subst k'. assert (g = g') by lra. subst g'. congruence.
Qed.
Lemma quantile_mono q q' l v w : q <= q' -> is_quantile q l v -> is_quantile q' l w -> v <= w.
Proof.
  intros Hq (s & k & g & P & S & K & G & E & B & V) (s' & k' & g' & P' & S' & K' & G' & E' & B' & W).
  assert (s = s') by (apply sorted_unique; auto; eapply Permutation_trans; [apply Permutation_sym, P|exact P']). subst s'.
  assert (L : length l = length s) by now apply Permutation_length. rewrite L in *.
  assert (N1 : 1 <= INR (length s)). { change 1 with (INR 1). apply le_INR. lia. }
  assert (Hh : INR k + g <= INR k' + g') by (rewrite E, E'; apply Rmult_le_compat_r; lra).
  assert (Up : forall k g, (k < length s)%nat -> 0 <= g < 1 -> (g = 0 \/ (Datatypes.S k < length s)%nat) ->
    nth k s 0 <= (1 - g) * nth k s 0 + g * nth (Datatypes.S k) s 0
    /\ ((Datatypes.S k < length s)%nat -> (1 - g) * nth k s 0 + g * nth (Datatypes.S k) s 0 <= nth (Datatypes.S k) s 0)).
  { intros j e Hj He [->|Hj'].
    - split; [lra|]. intros Hj'. pose proof (sorted_nth s S j (Datatypes.S j) ltac:(lia) Hj'). lra.
    - pose proof (sorted_nth s S j (Datatypes.S j) ltac:(lia) Hj') as M.
      split; [|intros _]; nra. }
  destruct (Nat.lt_trichotomy k k') as [Lt|[<-|Lt]].
  - destruct (Up k g K G B) as [_ U1]. destruct (Up k' g' K' G' B') as [U2 _].
    pose proof (sorted_nth s S (Datatypes.S k) k' ltac:(lia) K'). specialize (U1 ltac:(lia)). rewrite V, W. lra.
  - assert (g <= g') by lra. destruct B' as [->|B'].
    + assert (g = 0) by lra. subst. lra.
    + pose proof (sorted_nth s S k (Datatypes.S k) ltac:(lia) B'). rewrite V, W. nra.
  - exfalso. assert (M : (k' + 1 <= k)%nat) by lia. apply le_INR in M. rewrite plus_INR in M. cbn in M. lra.
Qed.
Lemma filter_perm {A} (f : A -> bool) l l' : Permutation l l' -> length (filter f l) = length (filter f l').
Proof.
  induction 1 as [|x l l' P IH|x y l|l l' l'' P IH P' IH']; cbn; auto.
  - destruct (f x); cbn; congruence.
  - destruct (f x), (f y); reflexivity.
  - congruence.
Qed.
Lemma filter_firstn_all {A} (f : A -> bool) d : forall (l : list A) k, (k <= length l)%nat ->
  (forall i, (i < k)%nat -> f (nth i l d) = true) -> (k <= length (filter f l))%nat.
Proof.
  induction l as [|x t IH]; intros k K H; [cbn in K; lia|]. destruct k as [|k]; [lia|]. cbn [filter].
  pose proof (H 0%nat ltac:(lia)) as H0. cbn in H0. rewrite H0. cbn [length]. apply le_n_S. apply IH; [cbn in K; lia|].
  intros i Hi. apply (H (S i)). lia.
Qed.
Lemma filter_skipn_all {A} (f : A -> bool) d : forall (l : list A) k,
  (forall i, (k <= i < length l)%nat -> f (nth i l d) = true) -> (length l - k <= length (filter f l))%nat.
Proof.
  induction l as [|x t IH]; intros k H; [cbn; lia|]. cbn [filter length]. destruct k as [|k].
  - pose proof (H 0%nat ltac:(cbn; lia)) as H0. cbn in H0. rewrite H0. cbn [length].
    specialize (IH 0%nat). assert (length t - 0 <= length (filter f t))%nat; [|lia].
    apply IH. intros i Hi. apply (H (S i)). cbn. lia.
  - assert (length t - k <= length (filter f t))%nat; [|destruct (f x); cbn [length]; lia].
    apply IH. intros i Hi. apply (H (S i)). cbn. lia.
Qed.
Lemma quantile_counts q l v : is_quantile q l v ->
  q * (INR (length l) - 1) < INR (at_most v l) /\ (1 - q) * (INR (length l) - 1) < INR (at_least v l).
Proof.
  intros (s & k & g & P & S & K & G & E & B & V).
  assert (L : length l = length s) by now apply Permutation_length.
  assert (Lo : forall i, (i <= k)%nat -> nth i s 0 <= v).
  { intros i Hi. pose proof (sorted_nth s S i k Hi ltac:(lia)). destruct B as [->|B].
    - rewrite V. lra.
    - pose proof (sorted_nth s S k (Datatypes.S k) ltac:(lia) ltac:(lia)). rewrite V. nra. }
  split.
  - rewrite <- E. unfold at_most. rewrite (filter_perm _ _ _ P).
    apply Rlt_le_trans with (INR (Datatypes.S k)); [rewrite S_INR; lra|]. apply le_INR.
    apply (filter_firstn_all _ 0); [lia|]. intros i Hi. destruct (Rle_dec (nth i s 0) v) as [|N]; [reflexivity|].
    exfalso. apply N. apply Lo. lia.
  - unfold at_least. rewrite (filter_perm _ _ _ P).
    replace ((1 - q) * (INR (length l) - 1)) with (INR (length l) - 1 - (INR k + g)) by (rewrite E; ring).
    destruct (Req_dec g 0) as [Z|Z].
    + apply Rlt_le_trans with (INR (length s - k)); [rewrite minus_INR by lia; rewrite <- L; lra|]. apply le_INR.
      apply (filter_skipn_all _ 0). intros i Hi. destruct (Rle_dec v (nth i s 0)) as [|N]; [reflexivity|]. exfalso. apply N.
      pose proof (sorted_nth s S k i ltac:(lia) ltac:(lia)). rewrite V, Z. lra.
    + destruct B as [B|B]; [contradiction|].
      apply Rlt_le_trans with (INR (length s - Datatypes.S k)).
      * rewrite minus_INR by lia. rewrite S_INR. rewrite <- L. lra.
      * apply le_INR. apply (filter_skipn_all _ 0). intros i Hi. destruct (Rle_dec v (nth i s 0)) as [|N]; [reflexivity|].
        exfalso. apply N. pose proof (sorted_nth s S (Datatypes.S k) i ltac:(lia) ltac:(lia)).
        pose proof (sorted_nth s S k (Datatypes.S k) ltac:(lia) ltac:(lia)). rewrite V. nra.
Qed.
Lemma between_count a b l : (at_most b l + at_least a l <= length l + between a b l)%nat.
Proof.
  unfold at_most, at_least, between. induction l as [|x t IH]; cbn [filter length]; [lia|].
  destruct (Rle_dec x b), (Rle_dec a x); cbn [andb length]; lia.
Qed.
Lemma quantile_within q l v : is_quantile q l v ->
  exists a b, In a l /\ In b l /\ a <= v <= b /\ (forall x, In x l -> (q = 0 -> v <= x) /\ (q = 1 -> x <= v)).
Proof.
  intros (s & k & g & P & S & K & G & E & B & V).
  assert (L : length l = length s) by now apply Permutation_length.
  assert (I : forall i, (i < length s)%nat -> In (nth i s 0) l).
  { intros i Hi. apply (Permutation_in _ (Permutation_sym P)). now apply nth_In. }
  assert (N1 : 1 <= INR (length l)). { change 1 with (INR 1). apply le_INR. lia. }
  exists (nth k s 0), (nth (if Req_EM_T g 0 then k else Datatypes.S k) s 0).
  split; [apply I; lia|]. split.
  { apply I. destruct (Req_EM_T g 0); [lia|]. destruct B; [contradiction|lia]. }
  split.
  { destruct (Req_EM_T g 0) as [->|Z]; [rewrite V; lra|]. destruct B as [|B]; [contradiction|].
    pose proof (sorted_nth s S k (Datatypes.S k) ltac:(lia) ltac:(lia)). rewrite V. nra. }
  intros x Hx. apply (Permutation_in _ P) in Hx. apply (In_nth _ _ 0) in Hx as (i & Hi & <-). split; intros ->.
  - assert (INR k = 0 /\ g = 0) as [K0 ->] by (pose proof (pos_INR k); lra).
    assert (k = 0)%nat by (apply INR_eq; exact K0). subst k.
    pose proof (sorted_nth s S 0 i ltac:(lia) Hi). rewrite V. lra.
  - assert (Hk : Datatypes.S k = length s).
    { apply INR_eq. rewrite S_INR. assert (INR k + g = INR (length s) - 1) by (rewrite <- L; lra).
      assert (INR (length s) - 1 < INR k + 1) by lra.
      assert (INR (length s) < INR (k + 2)) by (rewrite plus_INR; cbn; lra). apply INR_lt in H1.
      replace (length s) with (Datatypes.S k) by lia. rewrite S_INR. reflexivity. }
    assert (g = 0) by (destruct B; [assumption|lia]). subst g.
    pose proof (sorted_nth s S i k ltac:(lia) ltac:(lia)). rewrite V. lra.
Qed.

(** ** the sample variance *)
Lemma sum_rsum l : sum l = rsum l.
Proof. induction l as [|x t IH]; cbn; [reflexivity|]. now rewrite <- IH. Qed.
Lemma rsum_nonneg l : (forall x, In x l -> 0 <= x) -> 0 <= rsum l.
Proof.
  induction l as [|x t IH]; intros H; cbn; [lra|]. pose proof (H x (or_introl eq_refl)).
  pose proof (IH (fun y Hy => H y (or_intror Hy))). lra.
Qed.
Lemma sample_variance_nonneg l : (2 <= length l)%nat -> 0 <= sample_variance l.
Proof.
  intros H. unfold sample_variance. apply Rmult_le_pos.
  - apply rsum_nonneg. intros x Hx. apply in_map_iff in Hx as (y & <- & _). apply Rle_0_sqr.
  - apply Rlt_le, Rinv_0_lt_compat, lt_0_INR. lia.
Qed.
Lemma std_square l : (2 <= length l)%nat -> std_1 l * std_1 l = sample_variance l.
Proof.
  intros H. pose proof (sample_variance_nonneg l H) as N. unfold std_1.
  replace (sum (map _ l) / (INR (length l) - 1)) with (sample_variance l); [now apply sqrt_sqrt|].
  unfold sample_variance, average. rewrite minus_INR by lia. cbn [INR].
  reflexivity.
Qed.

(** ** rescaled coordinates *)
Lemma total_ext n f g : (forall i, (i < n)%nat -> f i = g i) -> total n f = total n g.
Proof.
  intros H. unfold total. f_equal. apply map_ext_in. intros i Hi. apply H. apply in_seq in Hi. lia.
Qed.
Lemma total_zero n f : (forall i, (i < n)%nat -> f i = 0) -> total n f = 0.
Proof.
  intros H. rewrite (total_ext n f (fun _ => 0) H). unfold total. induction (seq 0 n) as [|a t IH]; cbn; [reflexivity|]. rewrite IH. ring.
Qed.
Lemma total_step n f : total (S n) f = total n f + f n.
Proof.
  unfold total. rewrite seq_S, map_app, fold_right_app. cbn. rewrite Rplus_0_r.
  generalize (f n). intros c. induction (seq 0 n) as [|a t IH]; cbn; [ring|]. rewrite IH. ring.
Qed.
Lemma total_single n f k : (k < n)%nat -> (forall i, (i < n)%nat -> i <> k -> f i = 0) -> total n f = f k.
Proof.
  induction n as [|n IH]; intros K H; [lia|]. rewrite total_step. destruct (Nat.eq_dec k n) as [->|N].
  - rewrite total_zero; [ring|]. intros i Hi. apply H; lia.
  - rewrite IH; [|lia|intros i Hi Hn; apply H; lia]. rewrite (H n); [ring|lia|lia].
Qed.
Lemma matvec_diagonal n d z : matvec n (diagonal d) z = fun i => if (i <? n)%nat then d i * z i else 0.
Proof.
  apply functional_extensionality. intros i. unfold matvec, diagonal. destruct (Nat.ltb_spec i n) as [L|L].
  - rewrite (total_single n _ i L); [now rewrite Nat.eqb_refl|].
    intros j Hj Hn. destruct (Nat.eqb_spec i j); [congruence|ring].
  - apply total_zero. intros j Hj. destruct (Nat.eqb_spec i j); [lia|ring].
Qed.
Lemma quadratic_total n M p : quadratic n M p = / 2 * total n (fun i => p i * total n (fun j => M i j * p j)).
Proof. reflexivity. Qed.
Lemma quadratic_diagonal n d p : quadratic n (diagonal d) p = / 2 * total n (fun i => d i * (p i * p i)).
Proof.
  rewrite quadratic_total. f_equal. apply total_ext. intros i Hi.
  rewrite (total_single n _ i Hi); [unfold diagonal; rewrite Nat.eqb_refl; ring|].
  intros j Hj Hn. unfold diagonal. destruct (Nat.eqb_spec i j); [congruence|ring].
Qed.

Lemma iter_map {A B} (h : A -> B) f g : (forall a, f (h a) = h (g a)) ->
  forall m a, Nat.iter m f (h a) = h (Nat.iter m g a).
Proof. intros H m a. induction m as [|m IH]; [reflexivity|]. cbn [Nat.iter nat_rect]. etransitivity; [exact (f_equal f IH)|]. apply H. Qed.
Section Rescale.
Variables (n : nat) (s : nat -> R) (gradient : (nat -> R) -> nat -> R) (step_size : R) (n_leapfrog : nat).
Hypothesis Hs : forall i, 0 < s i.
Let up (x : nat -> R) : nat -> R := fun i => s i * x i.
Let down (x : nat -> R) : nat -> R := fun i => x i / s i.
Let gradient' (x : nat -> R) : nat -> R := fun i => s i * gradient (up x) i.
Let square := diagonal (fun i => s i * s i).
Lemma kernel_rescaled x p k :
  leapfrog_kernel (matvec n square) gradient step_size n_leapfrog (up x, down p, k)
  = let '(x', p', k') := leapfrog_kernel (matvec n identity) gradient' step_size n_leapfrog (x, p, k) in (up x', down p', k').
Proof.
  unfold leapfrog_kernel. unfold square, identity. rewrite !matvec_diagonal.
  set (a := step_size * fst (leapfrog_coefs n_leapfrog k)). set (b := step_size * snd (leapfrog_coefs n_leapfrog k)).
  assert (E : vadd (up x) (vscale a (fun i => if (i <? n)%nat then s i * s i * down p i else 0))
              = up (vadd x (vscale a (fun i => if (i <? n)%nat then 1 * p i else 0)))).
  { apply functional_extensionality. intros i. unfold vadd, vscale, up, down. pose proof (Hs i).
    destruct (i <? n)%nat; [field; lra|ring]. }
  rewrite E. f_equal. f_equal. apply functional_extensionality. intros i. unfold vadd, vneg, vscale, down, gradient'.
  pose proof (Hs i). field. lra.
Qed.
Lemma leapfrog_rescaled x p :
  leapfrog_step (matvec n square) gradient step_size n_leapfrog (up x) (down p)
  = let '(x', p') := leapfrog_step (matvec n identity) gradient' step_size n_leapfrog x p in (up x', down p').
Proof.
  pose (h := fun c : Model_FlowMC.vec * Model_FlowMC.vec * nat =>
    let '(x, p, k) := c in (up x, down p, k) : Model_FlowMC.vec * Model_FlowMC.vec * nat).
  pose (g := leapfrog_kernel (matvec n identity) gradient' step_size n_leapfrog).
  pose (f := leapfrog_kernel (matvec n square) gradient step_size n_leapfrog).
  pose (c := (x, p, 0%nat) : Model_FlowMC.vec * Model_FlowMC.vec * nat).
  change (fst (Nat.iter (n_leapfrog + 2) f (h c)) = let '(x', p') := fst (Nat.iter (n_leapfrog + 2) g c) in (up x', down p')).
  rewrite (iter_map h f g).
  - destruct (Nat.iter (n_leapfrog + 2) g c) as [[x' p'] k']. reflexivity.
  - intros [[x' p'] k']. exact (kernel_rescaled x' p' k').
Qed.
Lemma kinetic_rescaled p : quadratic n square (down p) = quadratic n identity p.
Proof.
  unfold square, identity. rewrite !quadratic_diagonal. f_equal. apply total_ext. intros i Hi. unfold down. pose proof (Hs i). field. lra.
Qed.
Variables (logpdf : (nat -> R) -> X) (normals : Model_Key.rng -> nat -> R) (uniform : Model_Key.rng -> R).
Lemma hmc_rescaled keys : forall x l,
  sampler n square (diagonal (fun i => / s i)) gradient step_size n_leapfrog logpdf normals uniform keys (up x) l
  = let '(x', l') := sampler n identity identity gradient' step_size n_leapfrog (fun x => logpdf (up x)) normals uniform keys x l in (up x', l').
Proof.
  unfold sampler. induction keys as [|key keys IH]; intros x l; [reflexivity|]. cbn [hmc_steps].
  assert (D : matvec n (diagonal (fun i => / s i)) = fun z => down (matvec n identity z)).
  { apply functional_extensionality. intros z. unfold identity. rewrite !matvec_diagonal. apply functional_extensionality. intros i. unfold down.
    pose proof (Hs i). destruct (i <? n)%nat; field; lra. }
  assert (K : hmc_kernel (matvec n square) gradient step_size n_leapfrog logpdf (fun p => Fin (quadratic n square p))
     (fun k => matvec n (diagonal (fun i => / s i)) (normals k)) uniform key (up x) l
   = let '(x', l', b) := hmc_kernel (matvec n identity) gradient' step_size n_leapfrog (fun x => logpdf (up x)) (fun p => Fin (quadratic n identity p))
     (fun k => matvec n identity (normals k)) uniform key x l in (up x', l', b)).
  { unfold hmc_kernel. destruct (Model_Key.split2 key) as [k1 k2]. rewrite D, leapfrog_rescaled, kinetic_rescaled.
    destruct (leapfrog_step (matvec n identity) gradient' step_size n_leapfrog x (matvec n identity (normals k1))) as [x' p'].
    rewrite kinetic_rescaled. destruct (xltb _ _); reflexivity. }
  rewrite K. destruct (hmc_kernel (matvec n identity) _ _ _ _ _ _ _ key x l) as [[x' l'] b]. apply IH.
Qed.
End Rescale.

(** ** lists *)
Lemma nth_error_ext {A} : forall l l' : list A, (forall k, nth_error l k = nth_error l' k) -> l = l'.
Proof.
  induction l as [|x t IH]; intros [|y t'] H; auto.
  - discriminate (H 0%nat).
  - discriminate (H 0%nat).
  - f_equal; [now injection (H 0%nat)|]. apply IH. intros k. exact (H (S k)).
Qed.
