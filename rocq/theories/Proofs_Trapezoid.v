(** The trapezoidal rule, its cumulative sums and linear interpolation against the integral. *)
From Coq Require Import Reals Lra Lia List.
From Coquelicot Require Import Coquelicot.
From Verif Require Import Model_X Model_Powerlaw Model_Cosmology Proofs_Cosmology Model_Mass Proofs_MassGrid.
Import ListNotations.
Open Scope R_scope.

(** within every cell the function stays within [w] of its values at both ends *)
Fixpoint cells_within (f : R -> R) (w : R) (xs : list R) : Prop :=
  match xs with
  | x :: ((y :: _) as r) =>
    (forall t, x <= t <= y -> Rabs (f t - f x) <= w /\ Rabs (f t - f y) <= w) /\ cells_within f w r
  | _ => True
  end.

Lemma cell_integral : forall f w x y t, x <= t -> t <= y -> ex_RInt f x t ->
  (forall s, x <= s <= y -> Rabs (f s - f x) <= w /\ Rabs (f s - f y) <= w) ->
  Rabs ((t - x) * (f y + f x) / 2 - RInt f x t) <= w * (t - x).
Proof.
  intros f w x y t H1 H2 E H. set (c := (f y + f x) / 2).
  assert (B : Rabs (RInt (fun s => f s - c) x t) <= (t - x) * w).
  { apply abs_RInt_le_const; [exact H1| |].
    { apply (ex_RInt_minus f (fun _ => c)); [exact E|apply ex_RInt_const]. }
    intros s Hs. destruct (H s ltac:(lra)) as [A B]. apply Rabs_le_between in A, B. apply Rabs_le_between. unfold c. lra. }
  rewrite (RInt_minus f (fun _ => c)) in B; [|exact E|apply ex_RInt_const].
  rewrite RInt_const in B. unfold minus, plus, opp, scal in B; simpl in B. unfold mult in B; simpl in B.
  rewrite <- Rabs_Ropp. replace (- ((t - x) * (f y + f x) / 2 - RInt f x t)) with (RInt f x t + - ((t - x) * c)) by (unfold c; field).
  lra.
Qed.

Lemma last_ge : forall xs x, inc1 (x :: xs) -> x <= last (x :: xs) 0.
Proof.
  induction xs as [|y t IH]; intros x H; [simpl; lra|]. destruct H as [H1 H2].
  change (last (x :: y :: t) 0) with (last (y :: t) 0). specialize (IH y H2). lra.
Qed.

Lemma integrable_part : forall (f : R -> R) a b c d, a <= c -> c <= d -> d <= b -> ex_RInt f a b -> ex_RInt f c d.
Proof.
  intros f a b c d H1 H2 H3 E.
  apply (ex_RInt_Chasles_1 (V := R_CompleteNormedModule) f c d b); [lra|].
  apply (ex_RInt_Chasles_2 (V := R_CompleteNormedModule) f a c b); [lra|exact E].
Qed.

Lemma trapezoid_integral : forall xs x (f : R -> R) w, inc1 (x :: xs) -> cells_within f w (x :: xs) ->
  ex_RInt f x (last (x :: xs) 0) ->
  Rabs (trapezoid (x :: xs) (map f (x :: xs)) - RInt f x (last (x :: xs) 0)) <= w * (last (x :: xs) 0 - x).
Proof.
  induction xs as [|y t IH]; intros x f w Hi Hw E.
  { cbn [map trapezoid last]. rewrite RInt_point. change (zero : R) with 0. rewrite Rminus_0_r, Rabs_R0. lra. }
  destruct Hi as [Hxy Hi]. destruct Hw as [Hc Hw].
  change (last (x :: y :: t) 0) with (last (y :: t) 0) in *.
  pose proof (last_ge t y Hi) as Ly. set (b := last (y :: t) 0) in *.
  change (trapezoid (x :: y :: t) (map f (x :: y :: t))) with ((y - x) * (f y + f x) / 2 + trapezoid (y :: t) (map f (y :: t))).
  assert (E1 : ex_RInt f x y) by (apply (integrable_part f x b); try lra; exact E).
  assert (E2 : ex_RInt f y b) by (apply (integrable_part f x b); try lra; exact E).
  specialize (IH y f w Hi Hw E2). fold b in IH.
  pose proof (cell_integral f w x y y ltac:(lra) ltac:(lra) E1 Hc) as C.
  rewrite <- (RInt_Chasles f x y b E1 E2). change (plus (RInt f x y) (RInt f y b)) with (RInt f x y + RInt f y b).
  set (A := (y - x) * (f y + f x) / 2) in *. set (T := trapezoid _ _) in *.
  replace (A + T - (RInt f x y + RInt f y b)) with ((A - RInt f x y) + (T - RInt f y b)) by ring.
  eapply Rle_trans; [apply Rabs_triang|]. lra.
Qed.

Lemma cumulative_integral : forall xs x (f : R -> R) w a t, inc1 (x :: xs) -> xs <> [] -> cells_within f w (x :: xs) ->
  ex_RInt f x (last (x :: xs) 0) -> x <= t <= last (x :: xs) 0 ->
  Rabs (interp_cell t (combine (x :: xs) (a :: cumtrapz_from a (x :: xs) (map f (x :: xs)))) - (a + RInt f x t)) <= w * (t - x).
Proof.
  induction xs as [|y r IH]; intros x f w a t Hi Ne Hw E Ht; [congruence|]. clear Ne.
  destruct Hi as [Hxy Hi]. destruct Hw as [Hc Hw].
  change (last (x :: y :: r) 0) with (last (y :: r) 0) in *.
  pose proof (last_ge r y Hi) as Ly. set (b := last (y :: r) 0) in *.
  set (A := a + (y - x) * (f y + f x) / 2).
  change (cumtrapz_from a (x :: y :: r) (map f (x :: y :: r))) with (A :: cumtrapz_from A (y :: r) (map f (y :: r))).
  assert (E1 : ex_RInt f x y) by (apply (integrable_part f x b); try lra; exact E).
  assert (E2 : ex_RInt f y b) by (apply (integrable_part f x b); try lra; exact E).
  assert (Here : forall s, x <= s <= y -> 
     Rabs (a + (s - x) / (y - x) * (A - a) - (a + RInt f x s)) <= w * (s - x)).
  { intros s Hs. replace (a + (s - x) / (y - x) * (A - a) - (a + RInt f x s)) with ((s - x) * (f y + f x) / 2 - RInt f x s)
      by (unfold A; field; lra).
    apply cell_integral; try lra; [|exact Hc]. apply (integrable_part f x b); try lra; exact E. }
  destruct r as [|z r].
  { cbn [cumtrapz_from map combine interp_cell]. apply Here. unfold b in Ht. cbn [last] in Ht. lra. }
  assert (Sh : exists q, combine (x :: y :: z :: r) (a :: A :: cumtrapz_from A (y :: z :: r) (map f (y :: z :: r))) =
     (x, a) :: (y, A) :: q /\ q <> [] /\ (y, A) :: q = combine (y :: z :: r) (A :: cumtrapz_from A (y :: z :: r) (map f (y :: z :: r)))).
  { eexists. split; [reflexivity|]. split; [|reflexivity]. discriminate. }
  destruct Sh as (q & -> & Nq & Eq). destruct q as [|q0 q]; [congruence|].
  change (interp_cell t ((x, a) :: (y, A) :: q0 :: q))
    with (if Rlt_dec t y then a + (t - x) / (y - x) * (A - a) else interp_cell t ((y, A) :: q0 :: q)).
  destruct (Rlt_dec t y) as [L|L]; [apply Here; lra|].
  rewrite Eq. specialize (IH y f w A t Hi ltac:(discriminate) Hw E2 ltac:(fold b; lra)).
  assert (E3 : ex_RInt f y t) by (apply (integrable_part f x b); try lra; exact E).
  rewrite <- (RInt_Chasles f x y t E1 E3). change (plus (RInt f x y) (RInt f y t)) with (RInt f x y + RInt f y t).
  pose proof (cell_integral f w x y y ltac:(lra) ltac:(lra) E1 Hc) as C.
  set (V := interp_cell _ _) in *.
  replace (V - (a + (RInt f x y + RInt f y t))) with ((V - (A + RInt f y t)) + ((y - x) * (f y + f x) / 2 - RInt f x y)) by (unfold A; ring).
  eapply Rle_trans; [apply Rabs_triang|]. lra.
Qed.

(** nodes at equal distances *)
Lemma linspace_cells : forall (f : R -> R) w a b n, a < b -> (2 <= n)%nat ->
  (forall x y, a <= x <= b -> a <= y <= b -> Rabs (x - y) <= (b - a) / INR (n - 1) -> Rabs (f x - f y) <= w) ->
  cells_within f w (linspace a b n).
Proof.
  intros f w a b n H Hn Hw. pose proof (linspace_step a b n H Hn) as St. set (d := (b - a) / INR (n - 1)) in *.
  assert (Ed : INR (n - 1) * d = b - a).
  { unfold d. field. apply not_0_INR. lia. }
  assert (G : forall k i, (i + k <= n)%nat -> cells_within f w (map (fun i => a + INR i * d) (seq i k))).
  { induction k as [|k IH]; intros i Hi; [exact I|]. destruct k as [|k]; [exact I|].
    cbn [seq map]. cbn [cells_within]. split.
    { intros t Ht. rewrite S_INR in Ht.
      assert (Lo : 0 <= INR i * d) by (apply Rmult_le_pos; [apply pos_INR|lra]).
      assert (Hi' : (INR i + 1) * d <= b - a).
      { rewrite <- Ed. apply Rmult_le_compat_r; [lra|]. rewrite <- S_INR. apply le_INR. lia. }
      rewrite !S_INR. split; apply Hw; try lra; apply Rabs_le; lra. }
    apply (IH (S i)). lia. }
  unfold linspace. fold d. apply G. lia.
Qed.

Section Grid.
Variables (f : R -> R) (a b w : R) (n : nat).
Hypothesis Hab : a < b.
Hypothesis Hn : (2 <= n)%nat.
Hypothesis Hw : forall x y, a <= x <= b -> a <= y <= b -> Rabs (x - y) <= (b - a) / INR (n - 1) -> Rabs (f x - f y) <= w.
Hypothesis Hf : ex_RInt f a b.
Notation grid := (linspace a b n).

Lemma grid_shape : exists xs, grid = a :: xs /\ xs <> [].
Proof.
  pose proof (linspace_length a b n) as L. pose proof (linspace_hd a b n ltac:(lia)) as H0.
  destruct grid as [|x [|y xs]]; cbn [length] in L; try lia. cbn [hd] in H0. subst x. eexists. split; [reflexivity|discriminate].
Qed.

Lemma grid_total : Rabs (trapezoid grid (map f grid) - RInt f a b) <= w * (b - a).
Proof.
  pose proof (linspace_inc a b n Hab Hn) as I. pose proof (linspace_cells f w a b n Hab Hn Hw) as C.
  pose proof (linspace_last a b n Hn) as L. destruct grid_shape as (xs & E & _). rewrite E in *.
  rewrite <- L. apply trapezoid_integral; try assumption. now rewrite L.
Qed.

Lemma grid_cumulative : forall t, a <= t <= b ->
  Rabs (interp_cell t (combine grid (cumulative_trapezoid grid (map f grid))) - RInt f a t) <= w * (t - a).
Proof.
  intros t Ht.
  pose proof (linspace_inc a b n Hab Hn) as I. pose proof (linspace_cells f w a b n Hab Hn Hw) as C.
  pose proof (linspace_last a b n Hn) as L. destruct grid_shape as (xs & E & Ne). rewrite E in *.
  unfold cumulative_trapezoid. rewrite <- (Rplus_0_l (RInt f a t)). apply cumulative_integral; try assumption; rewrite L; assumption.
Qed.
End Grid.

(** interpolation is linear in the values *)
Lemma interp_cell_scale : forall c t xs ys, interp_cell t (combine xs (map (fun y => y / c) ys)) = interp_cell t (combine xs ys) / c.
Proof.
  intros c t. induction xs as [|x xs IH]; intros ys; [simpl; unfold Rdiv; ring|].
  destruct ys as [|y ys]; [simpl; unfold Rdiv; ring|].
  destruct xs as [|x' xs]; [reflexivity|]. destruct ys as [|y' ys]; [reflexivity|].
  specialize (IH (y' :: ys)). cbn [map combine] in *. cbn [interp_cell] in *.
  destruct (combine xs ys) as [|q qs] eqn:Q.
  { assert (combine xs (map (fun y0 => y0 / c) ys) = []) as ->.
    { destruct xs; [reflexivity|]. destruct ys; [reflexivity|discriminate]. }
    unfold Rdiv. ring. }
  assert (N : exists q' qs', combine xs (map (fun y0 => y0 / c) ys) = q' :: qs').
  { destruct xs; [discriminate|]. destruct ys; [discriminate|]. simpl. eexists. eexists. reflexivity. }
  destruct N as (q' & qs' & N). rewrite N in *. destruct (Rlt_dec t x'); [unfold Rdiv; ring|exact IH].
Qed.

(** ** linear interpolation is continuous *)
Lemma glue_continuous : forall (g h : R -> R) a x, (forall y, continuous g y) -> (forall y, continuous h y) -> g a = h a ->
  continuous (fun y => if Rlt_dec y a then g y else h y) x.
Proof.
  intros g h a x Cg Ch E.
  assert (M : forall y, continuous (fun y => (y + a - Rabs (y - a)) / 2) y /\ continuous (fun y => (y + a + Rabs (y - a)) / 2) y).
  { intros y. assert (A : continuous (fun y => Rabs (y - a)) y).
    { apply (continuous_comp (fun y => y - a) Rabs); [apply (continuous_minus (fun y => y) (fun _ => a)); [apply continuous_id|apply continuous_const]|apply continuous_Rabs]. }
    assert (B : continuous (fun y => y + a) y) by (apply (continuous_plus (fun y => y) (fun _ => a)); [apply continuous_id|apply continuous_const]).
    split.
    { apply (continuous_mult (fun y => y + a - Rabs (y - a)) (fun _ => / 2)); [|apply continuous_const].
      now apply (continuous_minus (fun y => y + a) (fun y => Rabs (y - a))). }
    apply (continuous_mult (fun y => y + a + Rabs (y - a)) (fun _ => / 2)); [|apply continuous_const].
    now apply (continuous_plus (fun y => y + a) (fun y => Rabs (y - a))). }
  apply continuous_ext with (fun y => g ((y + a - Rabs (y - a)) / 2) + h ((y + a + Rabs (y - a)) / 2) - g a).
  { intros y. destruct (Rlt_dec y a) as [L|L].
    { rewrite Rabs_left by lra. replace ((y + a - - (y - a)) / 2) with y by lra. replace ((y + a + - (y - a)) / 2) with a by lra. rewrite E. lra. }
    rewrite Rabs_pos_eq by lra. replace ((y + a - (y - a)) / 2) with a by lra. replace ((y + a + (y - a)) / 2) with y by lra. lra. }
  apply (continuous_minus (fun y => g ((y + a - Rabs (y - a)) / 2) + h ((y + a + Rabs (y - a)) / 2)) (fun _ => g a)); [|apply continuous_const].
  apply (continuous_plus (fun y => g ((y + a - Rabs (y - a)) / 2)) (fun y => h ((y + a + Rabs (y - a)) / 2))).
  { apply (continuous_comp (fun y => (y + a - Rabs (y - a)) / 2) g); [apply M|apply Cg]. }
  apply (continuous_comp (fun y => (y + a + Rabs (y - a)) / 2) h); [apply M|apply Ch].
Qed.

Lemma line_continuous : forall x0 f0 x1 f1 x, continuous (fun x => f0 + (x - x0) / (x1 - x0) * (f1 - f0)) x.
Proof.
  intros x0 f0 x1 f1 x. apply (continuous_plus (fun _ => f0) (fun x => (x - x0) / (x1 - x0) * (f1 - f0))); [apply continuous_const|].
  apply (continuous_mult (fun x => (x - x0) / (x1 - x0)) (fun _ => f1 - f0)); [|apply continuous_const].
  apply (continuous_mult (fun x => x - x0) (fun _ => / (x1 - x0))); [|apply continuous_const].
  apply (continuous_minus (fun x => x) (fun _ => x0)); [apply continuous_id|apply continuous_const].
Qed.

Lemma interp_cell_continuous : forall pts, inc2 pts -> forall x, continuous (fun x => interp_cell x pts) x.
Proof.
  induction pts as [|[x0 f0] [|[x1 f1] t] IH]; intros Hi x.
  { apply continuous_const. } { apply continuous_const. }
  destruct t as [|[x2 f2] t]; [apply line_continuous|].
  destruct Hi as (H1 & H2 & Hr). cbn [fst snd] in *.
  change (continuous (fun x => if Rlt_dec x x1 then f0 + (x - x0) / (x1 - x0) * (f1 - f0)
                               else interp_cell x ((x1, f1) :: (x2, f2) :: t)) x).
  apply glue_continuous; [apply line_continuous|apply (IH Hr)|].
  replace (f0 + (x1 - x0) / (x1 - x0) * (f1 - f0)) with f1 by (field; lra).
  destruct Hr as (K1 & _). cbn [fst] in K1. cbn [interp_cell]. 
  replace (f1 + (x1 - x1) / (x2 - x1) * (f2 - f1)) with f1 by (field; lra).
  destruct t; [reflexivity|]. destruct (Rlt_dec x1 x2); [reflexivity|lra].
Qed.

Lemma interp_continuous : forall xp fp, length xp = length fp -> (2 <= length xp)%nat -> inc2 (combine xp fp) ->
  forall x, continuous (fun x => interp x xp fp) x.
Proof.
  intros xp fp L C I x. pose proof (interp_cell_continuous _ I) as K.
  destruct (first_below_last xp fp L C I) as [F1 F2].
  assert (EH : interp_cell (hd 0 xp) (combine xp fp) = hd 0 fp).
  { destruct (pts_shape xp fp L C) as (x0 & x1 & xt & f0 & f1 & ft & E1 & E2 & _). subst. cbn [hd combine interp_cell].
    destruct I as (I1 & _). cbn [fst combine] in I1.
    replace (f0 + (x0 - x0) / (x1 - x0) * (f1 - f0)) with f0 by (field; lra).
    destruct (combine xt ft); [reflexivity|]. destruct (Rlt_dec x0 x1); [reflexivity|lra]. }
  assert (EL : interp_cell (last xp 0) (combine xp fp) = last fp 0).
  { destruct (interp_inside xp fp L C I (last xp 0) ltac:(lra)) as (<- & B & _).
    destruct (interp_inside fp xp (eq_sym L) ltac:(lia)) with (x := last fp 0) as (_ & B' & R').
    { rewrite <- swap_combine. now apply inc2_swap. } { lra. }
    apply Rle_antisym; [apply B|]. rewrite <- R' at 1. apply (interp_monotone xp fp L C I). apply B'. }
  apply continuous_ext with (fun x => if Rlt_dec x (hd 0 xp) then hd 0 fp
     else if Rlt_dec x (last xp 0) then interp_cell x (combine xp fp) else last fp 0).
  { intros y. unfold interp. destruct (Rlt_dec y (hd 0 xp)); [reflexivity|].
    destruct (Rlt_dec (last xp 0) y) as [A|A]; destruct (Rlt_dec y (last xp 0)) as [B|B]; try lra; try reflexivity.
    assert (y = last xp 0) as -> by lra. now rewrite EL. }
  apply glue_continuous with (h := fun x => if Rlt_dec x (last xp 0) then interp_cell x (combine xp fp) else last fp 0).
  { intros; apply continuous_const. }
  { intros y. apply glue_continuous; [exact K|intros; apply continuous_const|exact EL]. }
  destruct (Rlt_dec (hd 0 xp) (last xp 0)) as [A|A]; [now rewrite EH|].
  assert (E : hd 0 xp = last xp 0) by lra. now rewrite <- EL, <- E, EH.
Qed.
