From Coq Require Import Reals Lra Lia List ZArith Psatz.
From Verif Require Import Model_X Spec_X Proofs_X Model_Likelihood Model_Cosmology Proofs_Transform.
Import ListNotations.
Open Scope R_scope.

(** knots increasing in both coordinates *)
Fixpoint inc2 (pts : list (R * R)) : Prop :=
  match pts with
  | p0 :: ((p1 :: _) as r) => fst p0 < fst p1 /\ snd p0 < snd p1 /\ inc2 r
  | _ => True
  end.
Definition swap (pts : list (R * R)) := map (fun p => (snd p, fst p)) pts.

Lemma inc2_last : forall pts p0 d, inc2 (p0 :: pts) -> fst p0 <= fst (last (p0 :: pts) d) /\ snd p0 <= snd (last (p0 :: pts) d).
Proof.
  induction pts as [|p1 t IH]; intros p0 d H; [simpl; lra|].
  destruct H as (Hx & Hf & Hr). specialize (IH p1 d Hr). change (last (p0 :: p1 :: t) d) with (last (p1 :: t) d). lra.
Qed.

Lemma swap_last : forall pts d, pts <> [] -> last (swap pts) (snd d, fst d) = (snd (last pts d), fst (last pts d)).
Proof.
  induction pts as [|p t IH]; intros d Hn; [easy|]. destruct t as [|q t]; [reflexivity|].
  change (last (swap (p :: q :: t)) (snd d, fst d)) with (last (swap (q :: t)) (snd d, fst d)).
  change (last (p :: q :: t) d) with (last (q :: t) d). apply IH. discriminate.
Qed.

Lemma cell_bounds : forall x x0 x1 f0 f1, x0 < x1 -> f0 < f1 -> x0 <= x <= x1 ->
  f0 <= f0 + (x - x0) / (x1 - x0) * (f1 - f0) <= f1.
Proof.
  intros x x0 x1 f0 f1 H1 H2 Hx. set (u := (x - x0) / (x1 - x0)).
  assert (0 <= u). { apply Rmult_le_pos; [lra|]. left. apply Rinv_0_lt_compat. lra. }
  assert (u <= 1). { apply (Rmult_le_reg_r (x1 - x0)); [lra|]. unfold u. replace ((x - x0) / (x1 - x0) * (x1 - x0)) with (x - x0) by (field; lra). lra. }
  split; nra.
Qed.
Lemma cell_lt : forall x y x0 x1 f0 f1, x0 < x1 -> f0 < f1 -> x < y ->
  f0 + (x - x0) / (x1 - x0) * (f1 - f0) < f0 + (y - x0) / (x1 - x0) * (f1 - f0).
Proof.
  intros x y x0 x1 f0 f1 H1 H2 H. apply Rplus_lt_compat_l, Rmult_lt_compat_r; [lra|].
  apply Rmult_lt_compat_r; [apply Rinv_0_lt_compat; lra|lra].
Qed.
Lemma cell_at_1 : forall x0 x1 f0 f1, x0 < x1 -> f0 + (x1 - x0) / (x1 - x0) * (f1 - f0) = f1.
Proof. intros. field. lra. Qed.
Lemma cell_inverse : forall x x0 x1 f0 f1, x0 < x1 -> f0 < f1 ->
  x0 + (f0 + (x - x0) / (x1 - x0) * (f1 - f0) - f0) / (f1 - f0) * (x1 - x0) = x.
Proof. intros. field. lra. Qed.

(** value in the range, and interpolating back returns the abscissa *)
Lemma interp_cell_inverse : forall pts p0 p1 x d, inc2 (p0 :: p1 :: pts) ->
  fst p0 <= x <= fst (last (p0 :: p1 :: pts) d) ->
  let y := interp_cell x (p0 :: p1 :: pts) in
  snd p0 <= y <= snd (last (p0 :: p1 :: pts) d) /\ interp_cell y (swap (p0 :: p1 :: pts)) = x.
Proof.
  induction pts as [|p2 t IH]; intros [x0 f0] [x1 f1] x d H Hx.
  - cbn in *. destruct H as (H1 & H2 & _). split; [now apply cell_bounds|]. now apply cell_inverse.
  - destruct H as (H1 & H2 & Hr). change (last ((x0, f0) :: (x1, f1) :: p2 :: t) d) with (last ((x1, f1) :: p2 :: t) d) in *.
    pose proof (inc2_last _ _ d Hr) as [Hl1 Hl2].
    change (interp_cell x ((x0, f0) :: (x1, f1) :: p2 :: t)) with
      (if Rlt_dec x x1 then f0 + (x - x0) / (x1 - x0) * (f1 - f0) else interp_cell x ((x1, f1) :: p2 :: t)).
    intros y. change (interp_cell y (swap ((x0, f0) :: (x1, f1) :: p2 :: t))) with
      (if Rlt_dec y f1 then x0 + (y - f0) / (f1 - f0) * (x1 - x0) else interp_cell y (swap ((x1, f1) :: p2 :: t))).
    subst y. cbn [fst snd] in *. destruct (Rlt_dec x x1) as [Hc|Hc].
    + pose proof (cell_bounds x x0 x1 f0 f1 H1 H2 ltac:(lra)) as B.
      pose proof (cell_lt x x1 x0 x1 f0 f1 H1 H2 Hc) as B2. rewrite (cell_at_1 x0 x1 f0 f1 H1) in B2.
      split; [lra|]. destruct (Rlt_dec _ f1); [|lra]. now apply cell_inverse.
    + destruct (IH (x1, f1) p2 x d Hr ltac:(cbn [fst]; lra)) as [B E]. cbn [snd] in B. split; [lra|].
      destruct (Rlt_dec _ f1); [lra|exact E].
Qed.

Lemma interp_cell_lt : forall pts p0 p1 x y d, inc2 (p0 :: p1 :: pts) ->
  fst p0 <= x -> x < y -> y <= fst (last (p0 :: p1 :: pts) d) ->
  interp_cell x (p0 :: p1 :: pts) < interp_cell y (p0 :: p1 :: pts).
Proof.
  induction pts as [|p2 t IH]; intros [x0 f0] [x1 f1] x y d H Hx Hxy Hy.
  - cbn in *. destruct H as (H1 & H2 & _). now apply cell_lt.
  - destruct H as (H1 & H2 & Hr). change (last ((x0, f0) :: (x1, f1) :: p2 :: t) d) with (last ((x1, f1) :: p2 :: t) d) in *.
    cbn [fst snd] in *.
    change (interp_cell x ((x0, f0) :: (x1, f1) :: p2 :: t)) with
      (if Rlt_dec x x1 then f0 + (x - x0) / (x1 - x0) * (f1 - f0) else interp_cell x ((x1, f1) :: p2 :: t)).
    change (interp_cell y ((x0, f0) :: (x1, f1) :: p2 :: t)) with
      (if Rlt_dec y x1 then f0 + (y - x0) / (x1 - x0) * (f1 - f0) else interp_cell y ((x1, f1) :: p2 :: t)).
    destruct (Rlt_dec x x1) as [Hc|Hc], (Rlt_dec y x1) as [Hd|Hd].
    + now apply cell_lt.
    + pose proof (cell_lt x x1 x0 x1 f0 f1 H1 H2 Hc) as B2. rewrite (cell_at_1 x0 x1 f0 f1 H1) in B2.
      destruct (interp_cell_inverse t (x1, f1) p2 y d Hr ltac:(cbn [fst]; lra)) as [B _]. cbn [snd] in B. lra.
    + lra.
    + apply (IH (x1, f1) p2 x y d Hr); cbn [fst]; lra.
Qed.

Lemma pts_shape : forall xp fp : list R, length xp = length fp -> (2 <= length xp)%nat ->
  exists x0 x1 xt f0 f1 ft, xp = x0 :: x1 :: xt /\ fp = f0 :: f1 :: ft /\ length xt = length ft.
Proof.
  intros [|x0 [|x1 xt]] [|f0 [|f1 ft]]; simpl; intros; try lia.
  exists x0, x1, xt, f0, f1, ft. repeat split. lia.
Qed.

Lemma last_combine : forall (xp fp : list R) a b, length xp = length fp -> last (combine xp fp) (a, b) = (last xp a, last fp b).
Proof.
  induction xp as [|x t IH]; intros [|f u] a b H; try discriminate; [reflexivity|].
  destruct t as [|x' t], u as [|f' u]; try discriminate; [reflexivity|].
  change (last (combine (x :: x' :: t) (f :: f' :: u)) (a, b)) with (last (combine (x' :: t) (f' :: u)) (a, b)).
  rewrite IH by (simpl in *; lia). reflexivity.
Qed.
Lemma swap_combine : forall xp fp : list R, swap (combine xp fp) = combine fp xp.
Proof. induction xp as [|x t IH]; intros [|f u]; try reflexivity. cbn. f_equal. apply IH. Qed.
Lemma inc2_swap : forall pts, inc2 pts -> inc2 (swap pts).
Proof.
  induction pts as [|p [|q t] IH]; intros H; try exact I. destruct H as (A & B & C). split; [exact B|]. split; [exact A|]. apply IH, C.
Qed.

Lemma interp_inside : forall xp fp, length xp = length fp -> (2 <= length xp)%nat -> inc2 (combine xp fp) -> forall x, hd 0 xp <= x <= last xp 0 ->
  interp x xp fp = interp_cell x (combine xp fp) /\ hd 0 fp <= interp x xp fp <= last fp 0
  /\ interp (interp x xp fp) fp xp = x.
Proof.
  intros xp fp Hlen H2 Hinc x Hx. destruct (pts_shape xp fp Hlen H2) as (x0 & x1 & xt & f0 & f1 & ft & -> & -> & Hl).
  assert (E : interp x (x0 :: x1 :: xt) (f0 :: f1 :: ft) = interp_cell x (combine (x0 :: x1 :: xt) (f0 :: f1 :: ft))).
  { unfold interp. cbn [hd] in *. destruct (Rlt_dec x x0) as [h|h]; [lra|]. destruct (Rlt_dec _ x); [lra|reflexivity]. }
  destruct (interp_cell_inverse (combine xt ft) (x0, f0) (x1, f1) x (0, 0) Hinc) as [B I].
  { change ((x0, f0) :: (x1, f1) :: combine xt ft) with (combine (x0 :: x1 :: xt) (f0 :: f1 :: ft)).
    rewrite last_combine by exact Hlen. exact Hx. }
  change ((x0, f0) :: (x1, f1) :: combine xt ft) with (combine (x0 :: x1 :: xt) (f0 :: f1 :: ft)) in B, I.
  rewrite last_combine in B by exact Hlen. cbn [snd] in B. rewrite swap_combine in I.
  split; [exact E|]. rewrite E. split; [exact B|].
  unfold interp at 1. destruct (Rlt_dec _ _) as [Hc|Hc]; [change (hd 0 (f0 :: f1 :: ft)) with f0 in Hc; lra|].
  destruct (Rlt_dec _ _); [lra|]. exact I.
Qed.
Lemma interp_strict : forall xp fp, length xp = length fp -> (2 <= length xp)%nat -> inc2 (combine xp fp) -> forall x y, hd 0 xp <= x -> x < y -> y <= last xp 0 -> interp x xp fp < interp y xp fp.
Proof.
  intros xp fp Hlen H2 Hinc x y Hx Hxy Hy. destruct (interp_inside xp fp Hlen H2 Hinc x ltac:(lra)) as [-> _]. destruct (interp_inside xp fp Hlen H2 Hinc y ltac:(lra)) as [-> _].
  destruct (pts_shape xp fp Hlen H2) as (x0 & x1 & xt & f0 & f1 & ft & -> & -> & Hl).
  apply (interp_cell_lt (combine xt ft) (x0, f0) (x1, f1) x y (0, 0) Hinc Hx Hxy).
  change ((x0, f0) :: (x1, f1) :: combine xt ft) with (combine (x0 :: x1 :: xt) (f0 :: f1 :: ft)).
  now rewrite last_combine.
Qed.
Lemma interp_low : forall xp fp x, x < hd 0 xp -> interp x xp fp = hd 0 fp.
Proof. intros xp fp x H. unfold interp. destruct (Rlt_dec _ _); [reflexivity|lra]. Qed.
Lemma first_below_last : forall xp fp, length xp = length fp -> (2 <= length xp)%nat -> inc2 (combine xp fp) -> hd 0 xp <= last xp 0 /\ hd 0 fp <= last fp 0.
Proof.
  intros xp fp Hlen H2 Hinc. destruct (pts_shape xp fp Hlen H2) as (x0 & x1 & xt & f0 & f1 & ft & -> & -> & Hl).
  pose proof (inc2_last (combine (x1 :: xt) (f1 :: ft)) (x0, f0) (0,0) Hinc) as H.
  change ((x0, f0) :: combine (x1 :: xt) (f1 :: ft)) with (combine (x0 :: x1 :: xt) (f0 :: f1 :: ft)) in H.
  rewrite last_combine in H by exact Hlen. exact H.
Qed.
Lemma interp_high : forall xp fp, length xp = length fp -> (2 <= length xp)%nat -> inc2 (combine xp fp) -> forall x, last xp 0 < x -> interp x xp fp = last fp 0.
Proof.
  intros xp fp Hlen H2 Hinc x H. pose proof (first_below_last xp fp Hlen H2 Hinc). unfold interp. destruct (Rlt_dec x _); [lra|]. destruct (Rlt_dec _ _); [reflexivity|lra].
Qed.
Lemma interp_monotone : forall xp fp, length xp = length fp -> (2 <= length xp)%nat -> inc2 (combine xp fp) -> forall x y, x <= y -> interp x xp fp <= interp y xp fp.
Proof.
  intros xp fp Hlen H2 Hinc x y H. pose proof (first_below_last xp fp Hlen H2 Hinc) as [F1 F2].
  destruct (Rlt_dec x (hd 0 xp)) as [a|a]; [rewrite (interp_low xp fp x a)|].
  { destruct (Rlt_dec y (hd 0 xp)) as [b|b]; [rewrite (interp_low xp fp y b); lra|].
    destruct (Rlt_dec (last xp 0) y) as [c|c]; [rewrite (interp_high xp fp Hlen H2 Hinc y c); lra|].
    destruct (interp_inside xp fp Hlen H2 Hinc y ltac:(lra)) as (_ & B & _). lra. }
  destruct (Rlt_dec (last xp 0) y) as [c|c]; [rewrite (interp_high xp fp Hlen H2 Hinc y c)|].
  { destruct (Rlt_dec (last xp 0) x) as [b|b]; [rewrite (interp_high xp fp Hlen H2 Hinc x b); lra|].
    destruct (interp_inside xp fp Hlen H2 Hinc x ltac:(lra)) as (_ & B & _). lra. }
  destruct (Req_dec x y) as [->|n]; [lra|]. left. apply interp_strict; auto; lra.
Qed.


(** ** the grid *)
Lemma ceil_ge : forall x, x <= IZR (ceil x) < x + 1.
Proof.
  intros x. unfold ceil. rewrite opp_IZR. destruct (base_Int_part (- x)) as [A B]. lra.
Qed.
Lemma arange_length : forall stop step, length (arange0 stop step) = Z.to_nat (ceil (stop / step)).
Proof. intros. unfold arange0. now rewrite map_length, seq_length. Qed.

Fixpoint inc1 (l : list R) : Prop :=
  match l with x :: ((y :: _) as r) => x < y /\ inc1 r | _ => True end.
Lemma inc1_map_seq : forall step n i, 0 < step -> inc1 (map (fun i => INR i * step) (seq i n)).
Proof.
  intros step n. induction n as [|n IH]; intros i H; [exact I|]. destruct n as [|n]; [exact I|]. split; [|exact (IH (S i) H)].
  rewrite S_INR. lra.
Qed.
Lemma last_map_seq : forall step n i, last (map (fun i => INR i * step) (seq i (S n))) 0 = INR (i + n) * step.
Proof.
  intros step n. induction n as [|n IH]; intros i; [now rewrite Nat.add_0_r|].
  change (last (map (fun i => INR i * step) (seq i (S (S n)))) 0) with (last (map (fun i => INR i * step) (seq (S i) (S n))) 0).
  rewrite IH. do 2 f_equal. lia.
Qed.

Lemma cumtrapz_length : forall xs ys a, length xs = length ys -> length (cumtrapz_from a xs ys) = (length xs - 1)%nat.
Proof.
  induction xs as [|x [|x' t] IH]; intros [|y [|y' u]] a H; try discriminate; try reflexivity.
  change (length (cumtrapz_from a (x :: x' :: t) (y :: y' :: u)))
    with (S (length (cumtrapz_from (a + (x' - x) * (y' + y) / 2) (x' :: t) (y' :: u)))).
  rewrite IH by (simpl in *; lia). simpl. lia.
Qed.
Lemma map2_length : forall {A B C} (f : A -> B -> C) a b, length a = length b -> length (map2 f a b) = length a.
Proof. induction a as [|x t IH]; intros [|y u] H; try discriminate; [reflexivity|]. cbn. f_equal. apply IH. now injection H. Qed.

Lemma trapz_positive : forall x0 x1 y0 y1, x0 < x1 -> 0 < y0 -> 0 < y1 -> 0 < (x1 - x0) * (y1 + y0) / 2.
Proof. intros. assert (0 < (x1 - x0) * (y1 + y0)) by (apply Rmult_lt_0_compat; lra). lra. Qed.

Lemma grid_increasing : forall xs ys a, inc1 xs -> (forall x, In x xs -> 0 <= x) -> length xs = length ys ->
  (forall y, In y ys -> 0 < y) -> 0 <= a ->
  inc2 (combine xs (a :: cumtrapz_from a xs ys))
  /\ inc2 (combine xs (map2 (fun d z => d * (1 + z)) (a :: cumtrapz_from a xs ys) xs)).
Proof.
  induction xs as [|x [|x' t] IH]; intros [|y [|y' u]] a Hi Hx Hl Hy Ha; try discriminate; try (now split).
  destruct Hi as [Hlt Hi].
  assert (P := trapz_positive x x' y y' Hlt (Hy y ltac:(now left)) (Hy y' ltac:(right; now left))).
  set (s := a + (x' - x) * (y' + y) / 2). assert (Hs : a < s) by (unfold s; lra).
  destruct (IH (y' :: u) s Hi) as [I1 I2].
  - intros z Hz. apply Hx. now right.
  - simpl in *; lia.
  - intros z Hz. apply Hy. now right.
  - lra.
  - change (cumtrapz_from a (x :: x' :: t) (y :: y' :: u)) with (s :: cumtrapz_from s (x' :: t) (y' :: u)).
    split.
    + split; [exact Hlt|]. split; [exact Hs|exact I1].
    + split; [exact Hlt|]. split; [|exact I2]. cbn [snd combine map2].
      pose proof (Hx x ltac:(now left)). pose proof (Hx x' ltac:(right; now left)). cbn [fst] in Hlt. nra.
Qed.

Section Cosmo.
Variables c Ho Om Or Ol max_z dz : R.
Hypothesis Hc : 0 < c.
Hypothesis HHo : 0 < Ho.
Hypothesis Hz : 0 < max_z.
Hypothesis Hdz : 0 < dz.
Hypothesis HE : forall z, 0 <= z -> 0 < E_squared Om Or Ol z.
Notation zs := (grid_z max_z dz).
Notation Dcs := (grid_Dc c Ho Om Or Ol max_z dz).
Notation DLs := (grid_DL c Ho Om Or Ol max_z dz).

Lemma dDcdz_pos : forall z, 0 <= z -> 0 < dDcdz c Ho Om Or Ol z.
Proof.
  intros z H. unfold dDcdz. apply Rdiv_lt_0_compat; [now apply Rdiv_lt_0_compat|]. apply sqrt_lt_R0, HE, H.
Qed.
Lemma grid_size : exists n, zs = map (fun i => INR i * dz) (seq 0 (S (S n))) /\ max_z <= INR (S n) * dz < max_z + dz.
Proof.
  unfold grid_z, arange0. pose proof (ceil_ge ((max_z + dz) / dz)) as [A B].
  assert (Q : (max_z + dz) / dz = max_z / dz + 1) by (field; lra). rewrite Q in A, B.
  assert (Hp : 0 < max_z / dz) by now apply Rdiv_lt_0_compat.
  rewrite Q. assert (C : (2 <= ceil (max_z / dz + 1))%Z). { apply Z.lt_pred_le. change (Z.pred 2) with 1%Z. apply lt_IZR. lra. }
  exists (Z.to_nat (ceil (max_z / dz + 1) - 2)). split; [f_equal; f_equal; lia|].
  rewrite INR_IZR_INZ. replace (Z.of_nat (S (Z.to_nat (ceil (max_z / dz + 1) - 2)))) with (ceil (max_z / dz + 1) - 1)%Z by lia.
  rewrite minus_IZR. set (u := IZR (ceil (max_z / dz + 1))) in *.
  assert (M : max_z / dz * dz = max_z) by (field; lra). split.
  - apply Rle_trans with (max_z / dz * dz); [lra|]. apply Rmult_le_compat_r; lra.
  - apply Rlt_le_trans with ((max_z / dz + 1) * dz); [apply Rmult_lt_compat_r; lra|lra].
Qed.
Lemma grid_facts : inc1 zs /\ (forall z, In z zs -> 0 <= z) /\ (2 <= length zs)%nat /\ hd 0 zs = 0 /\ max_z <= last zs 0 < max_z + dz.
Proof.
  destruct grid_size as (n & E & B). rewrite E. split; [now apply inc1_map_seq|]. split; [|split; [|split]].
  - intros z Hin. apply in_map_iff in Hin. destruct Hin as (i & <- & _). apply Rmult_le_pos; [apply pos_INR|lra].
  - rewrite map_length, seq_length. lia.
  - cbn. lra.
  - rewrite last_map_seq. exact B.
Qed.
Lemma DLs_inc : inc2 (combine zs Dcs) /\ inc2 (combine zs DLs).
Proof.
  destruct grid_facts as (A & B & C & D & _). unfold grid_DL, grid_Dc, cumulative_trapezoid. apply grid_increasing; auto.
  - now rewrite map_length.
  - intros y Hy. apply in_map_iff in Hy. destruct Hy as (z & <- & Hz'). apply dDcdz_pos. now apply B.
  - lra.
Qed.
Lemma DLs_length : length zs = length Dcs /\ length zs = length DLs.
Proof.
  destruct grid_facts as (_ & _ & C & _ & _).
  assert (E : length zs = length Dcs).
  { unfold grid_Dc, cumulative_trapezoid. cbn [length]. rewrite cumtrapz_length by now rewrite map_length. lia. }
  split; [exact E|]. unfold grid_DL. rewrite map2_length; auto.
Qed.
Lemma DL0 : hd 0 DLs = 0.
Proof.
  unfold grid_DL, grid_Dc, cumulative_trapezoid. destruct grid_facts as (_ & _ & C & D & _).
  destruct zs as [|z t]; [simpl in C; lia|]. cbn. ring.
Qed.
Lemma swapped : inc2 (combine DLs zs).
Proof. rewrite <- swap_combine. apply inc2_swap, DLs_inc. Qed.

Lemma z_round_trip : forall z, 0 <= z <= last zs 0 ->
  DL_to_z c Ho Om Or Ol max_z dz (z_to_DL c Ho Om Or Ol max_z dz z) = z
  /\ 0 <= z_to_DL c Ho Om Or Ol max_z dz z <= last DLs 0.
Proof.
  intros z H. destruct grid_facts as (_ & _ & C & D & _). destruct DLs_length as [_ L]. destruct DLs_inc as [_ I].
  destruct (interp_inside zs DLs L C I z) as (_ & B & E); [rewrite D; lra|]. split; [exact E|]. rewrite DL0 in B. exact B.
Qed.
Lemma d_round_trip : forall d, 0 <= d <= last DLs 0 ->
  z_to_DL c Ho Om Or Ol max_z dz (DL_to_z c Ho Om Or Ol max_z dz d) = d
  /\ 0 <= DL_to_z c Ho Om Or Ol max_z dz d <= last zs 0.
Proof.
  intros d H. destruct grid_facts as (_ & _ & C & D & _). destruct DLs_length as [_ L].
  destruct (interp_inside DLs zs (eq_sym L) ltac:(lia) swapped d) as (_ & B & E); [rewrite DL0; lra|].
  split; [exact E|]. rewrite D in B. exact B.
Qed.
Lemma z_to_DL_strict : forall x y, 0 <= x -> x < y -> y <= last zs 0 ->
  z_to_DL c Ho Om Or Ol max_z dz x < z_to_DL c Ho Om Or Ol max_z dz y.
Proof.
  intros x y H1 H2 H3. destruct grid_facts as (_ & _ & C & D & _). destruct DLs_length as [_ L]. destruct DLs_inc as [_ I].
  apply (interp_strict zs DLs L C I); auto. now rewrite D.
Qed.
Lemma z_to_Dc_facts : (forall x y, x <= y -> z_to_Dc c Ho Om Or Ol max_z dz x <= z_to_Dc c Ho Om Or Ol max_z dz y)
  /\ (forall x, 0 < x -> 0 < z_to_Dc c Ho Om Or Ol max_z dz x) /\ z_to_Dc c Ho Om Or Ol max_z dz 0 = 0.
Proof.
  destruct grid_facts as (_ & _ & C & D & W). destruct DLs_length as [L _]. destruct DLs_inc as [I _].
  assert (Z0 : z_to_Dc c Ho Om Or Ol max_z dz 0 = 0).
  { unfold z_to_Dc. destruct (interp_inside zs Dcs L C I 0) as (E & _); [rewrite D; lra|]. rewrite E.
    destruct (pts_shape zs Dcs L C) as (x0 & x1 & xt & f0 & f1 & ft & E1 & E2 & _). rewrite E1, E2 in *.
    cbn [hd] in D. subst x0. assert (f0 = 0) by (unfold grid_Dc, cumulative_trapezoid in E2; now injection E2). subst f0.
    cbn [combine interp_cell]. destruct I as (I1 & I2 & I3). cbn [fst snd] in I1, I2.
    destruct (combine xt ft); [field; lra|]. destruct (Rlt_dec 0 x1); [field; lra|lra]. }
  split; [intros; now apply (interp_monotone zs Dcs L C I)|]. split; [|exact Z0].
  intros x Hx. rewrite <- Z0. destruct (Rle_dec x (last zs 0)).
  - apply (interp_strict zs Dcs L C I); lra.
  - apply Rlt_le_trans with (z_to_Dc c Ho Om Or Ol max_z dz (last zs 0)).
    + apply (interp_strict zs Dcs L C I); lra.
    + apply (interp_monotone zs Dcs L C I). lra.
Qed.
Lemma clamped : (forall z, z < 0 -> z_to_DL c Ho Om Or Ol max_z dz z = 0)
  /\ (forall z, last zs 0 < z -> z_to_DL c Ho Om Or Ol max_z dz z = z_to_DL c Ho Om Or Ol max_z dz (last zs 0)).
Proof.
  destruct grid_facts as (_ & _ & C & D & W). destruct DLs_length as [_ L]. destruct DLs_inc as [_ I]. split; intros z H.
  - unfold z_to_DL. rewrite interp_low by (rewrite D; lra). exact DL0.
  - unfold z_to_DL. rewrite interp_high by auto.
    destruct (interp_inside zs DLs L C I (last zs 0)) as (_ & B & E); [rewrite D; lra|].
    destruct (interp_inside DLs zs (eq_sym L) ltac:(lia) swapped (last DLs 0)) as (_ & B' & E').
    { split; [|lra]. apply (first_below_last zs DLs); auto. }
    (* both ends map to each other *)
    symmetry. apply Rle_antisym; [apply B|].
    rewrite <- E' at 1. apply (interp_monotone zs DLs L C I). apply B'.
Qed.
Lemma clamped_d : (forall d, d < 0 -> DL_to_z c Ho Om Or Ol max_z dz d = 0)
  /\ (forall d, last DLs 0 < d -> DL_to_z c Ho Om Or Ol max_z dz d = last zs 0).
Proof.
  destruct grid_facts as (_ & _ & C & D & W). destruct DLs_length as [_ L]. split; intros z H.
  - unfold DL_to_z. rewrite interp_low by (rewrite DL0; lra). exact D.
  - unfold DL_to_z. rewrite interp_high; auto; [lia|]. apply swapped.
Qed.

(** comoving volume *)
Lemma dVcdz_value : forall z D, 0 <= z -> 0 < D ->
  dVcdz c Ho Om Or Ol z D = Fin (4 * PI / 10 ^ 9 * D ^ 2 * dDcdz c Ho Om Or Ol z).
Proof.
  intros z D Hz0 HD. unfold dVcdz, logdVcdz. pose proof PI_RGT_0. pose proof (dDcdz_pos z Hz0).
  rewrite !xln_fin by lra. unfold xsub. cbn [xadd xmul xopp xexp]. f_equal.
  rewrite !exp_plus, exp_Ropp, !exp_ln by lra.
  replace (9 * ln 10) with (INR 9 * ln 10) by (simpl; lra). replace (2 * ln D) with (INR 2 * ln D) by (simpl; lra).
  fold (Rpower 10 (INR 9)) (Rpower D (INR 2)). rewrite !Rpower_pow by lra. unfold Rdiv. ring.
Qed.
Lemma dVcdz_origin : forall z, 0 <= z -> dVcdz c Ho Om Or Ol z 0 = Fin 0.
Proof.
  intros z H. unfold dVcdz, logdVcdz. pose proof PI_RGT_0. pose proof (dDcdz_pos z H).
  rewrite (xln_fin (4 * PI)), (xln_fin 10), (xln_fin (dDcdz _ _ _ _ _ _)) by lra.
  assert (E : xln (Fin 0) = NInf) by (cbn; destruct (Rlt_dec 0 0); [lra|]; destruct (Req_EM_T 0 0); [reflexivity|lra]).
  assert (M : xmul (Fin 2) NInf = NInf).
  { cbn. unfold xinf_times. destruct (Rlt_dec 0 2); [reflexivity|lra]. }
  rewrite E, M. reflexivity.
Qed.
End Cosmo.
