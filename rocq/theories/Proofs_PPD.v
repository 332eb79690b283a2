From Coq Require Import String Reals Lra Lia List Bool Arith.
From Verif Require Import Model_X Spec_X Proofs_X Model_Guru Model_Mass Proofs_MassGrid Model_PPD Spec_PPD.
Import ListNotations.
Open Scope R_scope.

(** ** linear functionals *)
Definition linear {A} (L : (A -> R) -> R) : Prop :=
  (forall f g, L (fun a => f a + g a) = L f + L g)
  /\ (forall c f, L (fun a => c * f a) = c * L f)
  /\ (forall f g, (forall a, f a = g a) -> L f = L g).

Lemma linear_zero {A} (L : (A -> R) -> R) : linear L -> L (fun _ => 0) = 0.
Proof.
  intros (_ & Hs & He). rewrite (He (fun _ => 0) (fun _ => 0 * 0)) by (intros; ring). rewrite Hs. ring.
Qed.

Lemma trap_cons2 x y xs a b ys :
  trapezoid (x :: y :: xs) (a :: b :: ys) = (y - x) * (b + a) / 2 + trapezoid (y :: xs) (b :: ys).
Proof. reflexivity. Qed.

Lemma trap_swap {A} (L : (A -> R) -> R) : linear L -> forall xs ks (g : nat -> A -> R),
  trapezoid xs (map (fun k => L (g k)) ks) = L (fun l => trapezoid xs (map (fun k => g k l) ks)).
Proof.
  intros HL. pose proof HL as (Ha & Hs & He).
  induction xs as [|x xs IH]; intros ks g; [simpl; symmetry; now apply linear_zero|].
  destruct xs as [|y xs]; [simpl; symmetry; now apply linear_zero|].
  destruct ks as [|k ks]; [simpl; symmetry; now apply linear_zero|].
  destruct ks as [|l ks]; [simpl; symmetry; now apply linear_zero|].
  cbn [map]. rewrite trap_cons2.
  change (L (g l) :: map (fun k0 => L (g k0)) ks) with (map (fun k0 => L (g k0)) (l :: ks)). rewrite IH.
  rewrite <- Ha. unfold Rdiv.
  rewrite (He (fun l0 => trapezoid (x :: y :: xs) (g k l0 :: g l l0 :: map (fun k0 => g k0 l0) ks))
    (fun a => (y - x) * / 2 * (g l a + g k a) + trapezoid (y :: xs) (map (fun k0 => g k0 a) (l :: ks)))).
  - rewrite (Ha (fun a => (y - x) * / 2 * (g l a + g k a))), Hs. ring.
  - intros a. rewrite trap_cons2. cbn [map]. field.
Qed.

Lemma rsum_linear {B} (l : list B) : linear (fun f : B -> R => rsum (map f l)).
Proof.
  split; [|split].
  - intros. apply rsum_map_plus.
  - intros. apply rsum_map_scale.
  - intros f g H. f_equal. now apply map_ext.
Qed.
Lemma rsum_swap {A B} (L : (A -> R) -> R) : linear L -> forall (l : list B) (g : B -> A -> R),
  rsum (map (fun b => L (g b)) l) = L (fun a => rsum (map (fun b => g b a) l)).
Proof.
  intros HL. pose proof HL as (Ha & Hs & He). induction l as [|b l IH]; intros g; cbn [map rsum].
  - symmetry. now apply linear_zero.
  - rewrite IH, <- Ha. reflexivity.
Qed.

Lemma trap_linear {A} (xs : list R) (ks : list nat) (F : nat -> (A -> R) -> R) :
  (forall k, linear (F k)) -> linear (fun f : A -> R => trapezoid xs (map (fun k => F k f) ks)).
Proof.
  intros HF. split; [|split].
  - intros f g. revert ks. induction xs as [|x xs IH]; intros ks; [simpl; ring|].
    destruct xs as [|y xs]; [simpl; ring|]. destruct ks as [|k ks]; [simpl; ring|].
    destruct ks as [|l ks]; [simpl; ring|]. cbn [map]. rewrite !trap_cons2. specialize (IH (l :: ks)). cbn [map] in IH.
    rewrite IH. destruct (HF k) as (Hk & _). destruct (HF l) as (Hl & _). rewrite Hk, Hl. field.
  - intros c f. revert ks. induction xs as [|x xs IH]; intros ks; [simpl; ring|].
    destruct xs as [|y xs]; [simpl; ring|]. destruct ks as [|k ks]; [simpl; ring|].
    destruct ks as [|l ks]; [simpl; ring|]. cbn [map]. rewrite !trap_cons2. specialize (IH (l :: ks)). cbn [map] in IH.
    rewrite IH. destruct (HF k) as (_ & Hk & _). destruct (HF l) as (_ & Hl & _). rewrite Hk, Hl. field.
  - intros f g H. f_equal. apply map_ext. intros k. now apply (HF k).
Qed.

(** ** iterated trapezoids over indices *)
Fixpoint idx_int (ds : list domain) (g : list nat -> R) : R :=
  match ds with
  | [] => g []
  | d :: ds => trapezoid (d_grid d) (map (fun k => idx_int ds (fun p => g (k :: p))) (seq 0 (d_points d)))
  end.

Lemma idx_int_linear ds : linear (idx_int ds).
Proof.
  induction ds as [|d ds IH].
  - split; [|split]; simpl; auto.
  - apply (trap_linear (A := list nat) (d_grid d) (seq 0 (d_points d)) (fun k f => idx_int ds (fun p => f (k :: p)))).
    intros k. destruct IH as (Ha & Hs & He). split; [|split]; intros.
    + apply Ha.
    + apply Hs.
    + apply He. auto.
Qed.

Lemma idx_int_ext ds g h : (forall p, in_range ds p -> g p = h p) -> idx_int ds g = idx_int ds h.
Proof.
  revert g h. induction ds as [|d ds IH]; intros g h H; simpl.
  - apply H. constructor.
  - f_equal. apply map_ext_in. intros k Hk. apply in_seq in Hk. apply IH. intros p Hp. apply H.
    constructor; auto. unfold d_points in Hk. lia.
Qed.

Lemma idx_int_app ds es g : idx_int (ds ++ es) g = idx_int ds (fun p => idx_int es (fun r => g (p ++ r))).
Proof.
  revert g. induction ds as [|d ds IH]; intros g; simpl; auto.
  f_equal. apply map_ext. intros k. now rewrite IH.
Qed.

Lemma idx_int_swap ds es (g : list nat -> list nat -> R) :
  idx_int ds (fun p => idx_int es (g p)) = idx_int es (fun r => idx_int ds (fun p => g p r)).
Proof.
  revert g. induction ds as [|d ds IH]; intros g; simpl; auto.
  rewrite <- (trap_swap (idx_int es) (idx_int_linear es)). f_equal. apply map_ext. intros k.
  apply (IH (fun p => g (k :: p))).
Qed.

(** ** one axis after the other *)
Definition seg (m : nat) (ds : list domain) (t : tensor) : tensor :=
  fold_left (fun t d => trapezoid_axis (d_grid d) m t) ds t.

Lemma insert_at_app {A} (a e : list A) k : insert_at (length a) k (a ++ e) = a ++ k :: e.
Proof.
  unfold insert_at. rewrite firstn_app, skipn_app, firstn_all, skipn_all, Nat.sub_diag. simpl.
  now rewrite app_nil_r.
Qed.
Lemma remove_at_app {A} (a e : list A) k : remove_at (length a) (a ++ k :: e) = a ++ e.
Proof.
  unfold remove_at. f_equal.
  - rewrite firstn_app, firstn_all, Nat.sub_diag. apply app_nil_r.
  - induction a as [|x a IH]; [reflexivity|exact IH].
Qed.

Lemma seg_shape ds : forall t s1 s2, t_shape t = s1 ++ map d_points ds ++ s2 ->
  t_shape (seg (length s1) ds t) = s1 ++ s2.
Proof.
  induction ds as [|d ds IH]; intros t s1 s2 H; auto.
  simpl. apply IH. cbn [trapezoid_axis t_shape]. rewrite H. simpl. apply remove_at_app.
Qed.

Lemma seg_at ds : forall t s1 s2 a e, t_shape t = s1 ++ map d_points ds ++ s2 -> length a = length s1 ->
  t_at (seg (length s1) ds t) (a ++ e) = idx_int ds (fun p => t_at t (a ++ p ++ e)).
Proof.
  induction ds as [|d ds IH]; intros t s1 s2 a e H Hl; auto.
  cbn [seg fold_left]. fold (seg (length s1) ds (trapezoid_axis (d_grid d) (length s1) t)).
  rewrite (IH (trapezoid_axis (d_grid d) (length s1) t) s1 s2).
  2:{ cbn [trapezoid_axis t_shape]. rewrite H. simpl. apply remove_at_app. }
  2: auto.
  cbn [idx_int]. rewrite (trap_swap (idx_int ds) (idx_int_linear ds)).
  apply idx_int_ext. intros p _. cbn [trapezoid_axis t_at]. rewrite <- Hl. f_equal.
  rewrite Hl, H. rewrite app_nth2 by lia. rewrite Nat.sub_diag. cbn [map app nth].
  apply map_ext. intros k. rewrite <- Hl, insert_at_app. reflexivity.
Qed.

Lemma loop_after axis ds : forall i j t m, (axis < i)%nat -> i = (j + m)%nat ->
  marginal_loop axis i j ds t = seg m ds t.
Proof.
  induction ds as [|d ds IH]; intros i j t m Ha Hij; auto.
  cbn [marginal_loop]. destruct (Nat.eqb_spec i axis); [lia|]. rewrite (IH (S i) (S j) _ m) by lia.
  replace (i - j)%nat with m by lia. reflexivity.
Qed.
Lemma loop_before axis rest pre : forall i t, (i + length pre <= axis)%nat ->
  marginal_loop axis i i (pre ++ rest) t = marginal_loop axis (i + length pre) (i + length pre) rest (seg 0 pre t).
Proof.
  induction pre as [|d pre IH]; intros i t H.
  - simpl. now rewrite Nat.add_0_r.
  - cbn [app marginal_loop length] in *. destruct (Nat.eqb_spec i axis); [lia|].
    rewrite IH by lia. rewrite Nat.sub_diag. rewrite <- Nat.add_succ_comm. reflexivity.
Qed.

Lemma marginal_at pre d post t tail j e :
  t_shape t = map d_points (pre ++ d :: post) ++ tail ->
  t_shape (compute_marginal_probs t (length pre) (pre ++ d :: post)) = d_points d :: tail
  /\ t_at (compute_marginal_probs t (length pre) (pre ++ d :: post)) (j :: e)
     = idx_int (pre ++ post) (fun p => t_at t (insert_at (length pre) j p ++ e)).
Proof.
  intros H. unfold compute_marginal_probs. rewrite loop_before by lia. simpl Nat.add. cbn [marginal_loop].
  rewrite Nat.eqb_refl. rewrite (loop_after _ post _ _ _ 1) by lia.
  rewrite map_app in H. cbn [map] in H. rewrite <- app_assoc in H. cbn [app] in H.
  assert (Hs : t_shape (seg 0 pre t) = [d_points d] ++ map d_points post ++ tail).
  { apply (seg_shape pre t [] (d_points d :: map d_points post ++ tail)). exact H. }
  split.
  - apply (seg_shape post _ [d_points d] tail). exact Hs.
  - pose proof (seg_at post _ [d_points d] tail [j] e Hs eq_refl) as E1. cbn [length app] in E1. rewrite E1.
    rewrite idx_int_app, idx_int_swap. apply idx_int_ext. intros p2 _.
    pose proof (seg_at pre t [] (d_points d :: map d_points post ++ tail) [] ([j] ++ p2 ++ e) H eq_refl) as E.
    cbn [length app] in E. cbn [app]. rewrite E. apply idx_int_ext. intros p1 Hp1.
    assert (Hl : length pre = length p1) by (clear -Hp1; induction Hp1; simpl; auto).
    rewrite Hl, insert_at_app. now rewrite <- app_assoc.
Qed.

(** ** from indices to points *)
Lemma d_grid_nth d : d_grid d = map (grid_point d) (seq 0 (snd d)).
Proof. reflexivity. Qed.

Lemma trap_seq h (y : nat -> R) (x : nat -> R) : forall n a, (forall i, x (S i) - x i = h) ->
  trapezoid (map x (seq a n)) (map y (seq a n))
  = rsum (map (fun i => (y i + y (S i)) / 2 * h) (seq a (n - 1))).
Proof.
  intros n. induction n as [|n IH]; intros a Hx; [reflexivity|].
  destruct n as [|n]; [reflexivity|]. specialize (IH (S a) Hx).
  cbn [seq map] in *. rewrite trap_cons2, IH. simpl Nat.sub. rewrite Nat.sub_0_r.
  cbn [seq map rsum]. rewrite Hx. lra.
Qed.

Lemma rule_trap d f : rule d f = trapezoid (d_grid d) (map (fun k => f (grid_point d k)) (seq 0 (d_points d))).
Proof.
  unfold rule. rewrite d_grid_nth. symmetry. apply (trap_seq _ (fun k => f (grid_point d k)) (grid_point d)).
  intros i. unfold grid_point. rewrite S_INR. ring.
Qed.

Lemma integral_idx ds : forall f, integral ds f = idx_int ds (fun p => f (point_at ds p)).
Proof.
  induction ds as [|d ds IH]; intros f; auto.
  cbn [integral idx_int]. rewrite rule_trap. f_equal. apply map_ext. intros k. apply IH.
Qed.

Lemma point_at_insert pre d post j p : in_range (pre ++ post) p ->
  point_at (pre ++ d :: post) (insert_at (length pre) j p)
  = insert_at (length pre) (grid_point d j) (point_at (pre ++ post) p).
Proof.
  revert p. induction pre as [|d' pre IH]; intros p Hp; auto.
  inversion Hp as [|? i ? p' Hi Hp']; subst. unfold insert_at in *. cbn [length firstn skipn app].
  unfold point_at in *. cbn [combine map fst snd app]. f_equal. apply IH. exact Hp'.
Qed.

Lemma in_range_insert pre d post j p : in_range (pre ++ post) p -> (j < snd d)%nat ->
  in_range (pre ++ d :: post) (insert_at (length pre) j p).
Proof.
  revert p. induction pre as [|d' pre IH]; intros p Hp Hj.
  - unfold insert_at. simpl. constructor; auto.
  - inversion Hp as [|? i ? p' Hi Hp']; subst. unfold insert_at in *. cbn [length firstn skipn app].
    constructor; auto. now apply IH.
Qed.

(** ** the mesh *)
Lemma mesh_length axes : length (mesh axes) = size (map (@length R) axes).
Proof.
  induction axes as [|a axes IH]; auto. cbn [mesh map size fold_right]. unfold size in IH. rewrite <- IH.
  clear IH. induction a as [|x a IH]; auto. cbn [flat_map length]. rewrite app_length, IH, map_length. lia.
Qed.

Lemma mesh_at ds : forall idx, in_range ds idx ->
  nth (ravel (map d_points ds) idx) (mesh (map d_grid ds)) [] = point_at ds idx
  /\ (ravel (map d_points ds) idx < size (map d_points ds))%nat.
Proof.
  induction ds as [|d ds IH]; intros idx H; inversion H as [|? i ? p Hi Hp]; subst; [simpl; auto|].
  destruct (IH p Hp) as (IH1 & IH2). cbn [map ravel mesh]. rewrite d_grid_nth.
  set (n := size (map d_points ds)) in *. set (r := ravel (map d_points ds) p) in *.
  assert (Hm : length (mesh (map d_grid ds)) = n).
  { rewrite mesh_length, map_map. unfold n. f_equal. apply map_ext. intros d'. apply linspace_length. }
  split.
  - assert (G : forall k m i, (i < m)%nat ->
        nth (i * n + r) (flat_map (fun x => map (cons x) (mesh (map d_grid ds))) (map (grid_point d) (seq k m))) []
        = grid_point d (k + i) :: point_at ds p).
    { intros k m. revert k. induction m as [|m IHm]; intros k i' Hi'; [lia|]. cbn [seq map flat_map].
      destruct i' as [|i'].
      - rewrite app_nth1 by (rewrite map_length, Hm; simpl; lia). rewrite Nat.add_0_r.
        rewrite nth_indep with (d' := cons (grid_point d k) []) by (rewrite map_length, Hm; simpl; lia).
        rewrite (map_nth (cons (grid_point d k))). simpl. now rewrite IH1.
      - rewrite app_nth2 by (rewrite map_length, Hm; nia). rewrite map_length, Hm.
        replace (S i' * n + r - n)%nat with (i' * n + r)%nat by nia. rewrite IHm by lia.
        now rewrite Nat.add_succ_r. }
    rewrite G by exact Hi. reflexivity.
  - change (size (d_points d :: map d_points ds)) with (d_points d * n)%nat. unfold d_points at 1. nia.
Qed.

Lemma nth_concat_rows {A} (rows : list (list R)) n s r (dflt : A) :
  Forall (fun l => length l = n) rows -> (r < n)%nat -> (s < length rows)%nat ->
  nth (s * n + r) (concat rows) 0 = nth r (nth s rows []) 0.
Proof.
  intros H. revert s. induction H as [|l rows Hl _ IH]; intros s Hr Hs; [simpl in Hs; lia|].
  cbn [concat]. destruct s as [|s].
  - rewrite app_nth1 by (simpl; lia). reflexivity.
  - rewrite app_nth2 by nia. replace (S s * n + r - length l)%nat with (s * n + r)%nat by nia.
    simpl in Hs. rewrite IH by lia. reflexivity.
Qed.

Lemma concat_rows_length (rows : list (list R)) n :
  Forall (fun l => length l = n) rows -> length (concat rows) = (length rows * n)%nat.
Proof. induction 1 as [|l rows Hl _ IH]; auto. cbn [concat length]. rewrite app_length, IH, Hl. lia. Qed.

Section Values.
Variable density : list (string * R) -> list R -> R.
Variables (samples : list (list R)) (domains : list domain) (constants : list (string * R)) (mapping : list (string * nat)).
Hypothesis nonempty : Forall (fun d => (1 <= snd d)%nat) domains.

Definition prob_tensor : tensor :=
  let points := mesh (map d_grid domains) in
  let shape := map d_points domains in
  let flat := concat (map (compute_probs density constants mapping points) samples) in
  moveaxis_first_last (reshape flat (Nat.div (length flat) (size shape) :: shape)).

Lemma size_pos : (0 < size (map d_points domains))%nat.
Proof.
  induction nonempty as [|d ds Hd Ht IH]; [cbn; lia|].
  change (size (map d_points (d :: ds))) with (snd d * size (map d_points ds))%nat. apply Nat.mul_pos_pos; [exact Hd|exact (IH Ht)].
Qed.

Lemma rows_length : Forall (fun l => length l = size (map d_points domains))
  (map (compute_probs density constants mapping (mesh (map d_grid domains))) samples).
Proof.
  apply Forall_map, Forall_forall. intros row _. unfold compute_probs. rewrite map_length, mesh_length, map_map.
  f_equal. apply map_ext. intros d. apply linspace_length.
Qed.

Lemma prob_tensor_shape : t_shape prob_tensor = map d_points domains ++ [length samples].
Proof.
  unfold prob_tensor. cbn [reshape t_shape moveaxis_first_last]. f_equal. f_equal.
  rewrite (concat_rows_length _ _ rows_length), map_length. apply Nat.div_mul.
  pose proof size_pos. lia.
Qed.

Lemma prob_tensor_at idx s : in_range domains idx -> (s < length samples)%nat ->
  t_at prob_tensor (idx ++ [s])
  = density_of density constants mapping (nth s samples []) (point_at domains idx).
Proof.
  intros Hi Hs. unfold prob_tensor. cbn [reshape t_shape moveaxis_first_last t_at].
  rewrite last_last, removelast_last. cbn [ravel].
  destruct (mesh_at domains idx Hi) as (Hm & Hlt).
  rewrite (nth_concat_rows _ (size (map d_points domains)) _ _ tt rows_length Hlt) by (now rewrite map_length).
  rewrite nth_indep with (d' := compute_probs density constants mapping (mesh (map d_grid domains)) []) by (now rewrite map_length).
  rewrite map_nth. unfold compute_probs.
  set (f := density (constants ++ map (fun p => (fst p, nth (snd p) (nth s samples []) 0)) mapping)).
  rewrite nth_indep with (d' := f []).
  - rewrite map_nth, Hm. reflexivity.
  - rewrite map_length, mesh_length, map_map.
    rewrite (map_ext (fun x => length (d_grid x)) d_points); [exact Hlt|]. intros d. apply linspace_length.
Qed.

Lemma fold_rsum l : fold_right Rplus 0 l = rsum l.
Proof. induction l; simpl; congruence. Qed.

Lemma rsum_samples (f : list R -> R) :
  rsum (map (fun s => f (nth s samples [])) (seq 0 (length samples))) = rsum (map f samples).
Proof.
  f_equal. rewrite <- (map_map (fun s => nth s samples []) f). f_equal.
  clear. induction samples as [|a l IH]; auto. cbn [length seq map nth]. f_equal.
  rewrite <- seq_shift, map_map. exact IH.
Qed.

Lemma ppd_at idx : in_range domains idx ->
  t_at (mean_last prob_tensor) idx
  = mean (map (fun row => density_of density constants mapping row (point_at domains idx)) samples).
Proof.
  intros Hi. unfold mean_last. cbn [t_at]. rewrite prob_tensor_shape, last_last, fold_rsum. unfold mean.
  rewrite map_length. f_equal.
  rewrite <- (rsum_samples (fun row => density_of density constants mapping row (point_at domains idx))).
  f_equal. apply map_ext_in. intros s Hs. apply in_seq in Hs. apply prob_tensor_at; auto. lia.
Qed.
Lemma ppd_shape : t_shape (mean_last prob_tensor) = map d_points domains.
Proof. unfold mean_last. cbn [t_shape]. rewrite prob_tensor_shape. apply removelast_last. Qed.

Lemma sample_marginal pre d post j s : domains = pre ++ d :: post -> (j < snd d)%nat -> (s < length samples)%nat ->
  t_at (compute_marginal_probs prob_tensor (length pre) domains) [j; s]
  = integral (pre ++ post) (fun p => density_of density constants mapping (nth s samples [])
                                       (insert_at (length pre) (grid_point d j) p)).
Proof.
  intros E Hj Hs.
  assert (Hsh : t_shape prob_tensor = map d_points (pre ++ d :: post) ++ [length samples]).
  { rewrite <- E. apply prob_tensor_shape. }
  rewrite E. destruct (marginal_at pre d post prob_tensor _ j [s] Hsh) as (_ & ->).
  rewrite integral_idx. apply idx_int_ext. intros p Hp.
  rewrite prob_tensor_at; auto.
  - rewrite E at 1. now rewrite point_at_insert.
  - rewrite E. now apply in_range_insert.
Qed.

Lemma ppd_marginal pre d post j : domains = pre ++ d :: post -> (j < snd d)%nat ->
  t_at (compute_marginal_probs (mean_last prob_tensor) (length pre) domains) [j]
  = integral (pre ++ post)
      (fun p => mean (map (fun row => density_of density constants mapping row (insert_at (length pre) (grid_point d j) p)) samples)).
Proof.
  intros E Hj.
  assert (Hsh : t_shape (mean_last prob_tensor) = map d_points (pre ++ d :: post) ++ []).
  { rewrite app_nil_r, <- E. apply ppd_shape. }
  rewrite E. destruct (marginal_at pre d post (mean_last prob_tensor) _ j [] Hsh) as (_ & ->).
  rewrite integral_idx. apply idx_int_ext. intros p Hp. rewrite app_nil_r.
  rewrite ppd_at.
  - rewrite E. now rewrite point_at_insert.
  - rewrite E. now apply in_range_insert.
Qed.
End Values.

Lemma integral_linear ds : linear (integral ds).
Proof.
  destruct (idx_int_linear ds) as (Ha & Hs & He). split; [|split]; intros.
  - rewrite !integral_idx. apply (Ha (fun p => f (point_at ds p)) (fun p => g (point_at ds p))).
  - rewrite !integral_idx. apply (Hs c (fun p => f (point_at ds p))).
  - rewrite !integral_idx. apply He. auto.
Qed.

(** integrating the marginal over its own axis gives the integral over all axes *)
Lemma integral_insert pre d post f :
  rule d (fun x => integral (pre ++ post) (fun p => f (insert_at (length pre) x p))) = integral (pre ++ d :: post) f.
Proof.
  revert f. induction pre as [|d' pre IH]; intros f.
  - reflexivity.
  - cbn [app integral length]. rewrite !rule_trap.
    set (g := fun j k => integral (pre ++ post) (fun p => f (grid_point d' k :: insert_at (length pre) (grid_point d j) p))).
    transitivity (trapezoid (d_grid d) (map (fun j => trapezoid (d_grid d') (map (g j) (seq 0 (d_points d')))) (seq 0 (d_points d)))).
    { f_equal. apply map_ext. intros j. apply rule_trap. }
    transitivity (trapezoid (d_grid d') (map (fun k => trapezoid (d_grid d) (map (fun j => g j k) (seq 0 (d_points d)))) (seq 0 (d_points d')))).
    { symmetry. apply (trap_swap (fun h => trapezoid (d_grid d) (map h (seq 0 (d_points d))))
        (trap_linear (d_grid d) (seq 0 (d_points d)) (fun k h => h k)
         ltac:(intros k; split; [|split]; auto)) (d_grid d') (seq 0 (d_points d')) (fun k j => g j k)). }
    f_equal. apply map_ext. intros k. rewrite <- (IH (fun p => f (grid_point d' k :: p))). symmetry. apply rule_trap.
Qed.
