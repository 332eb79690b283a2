(** The trapezoid table to second order, and its bounds for flat universes of matter and dark energy. *)
From Coq Require Import Reals List ZArith Lia Lra Psatz.
From Coquelicot Require Import Coquelicot.
From Verif Require Import Model_X Spec_X Proofs_X Model_Likelihood Model_Cosmology Spec_Cosmology Proofs_Cosmology Proofs_Friedmann.
Import ListNotations.
Open Scope R_scope.

Lemma dominated (H H' K K' : R -> R) a b : a <= b ->
  (forall t, a <= t <= b -> is_derive H t (H' t)) -> (forall t, a <= t <= b -> is_derive K t (K' t)) ->
  (forall t, a <= t <= b -> Rabs (H' t) <= K' t) -> Rabs (H b - H a) <= K b - K a.
Proof.
  intros Hab DH DK B.
  assert (G : forall s, s = 1 \/ s = -1 -> 0 <= (K b - s * H b) - (K a - s * H a)).
  { intros s Hs.
    assert (DD : forall t, a <= t <= b -> is_derive (fun t => K t - s * H t) t (K' t - s * H' t)).
    { intros t Ht. apply @is_derive_minus; [apply DK; lra|]. apply is_derive_scal, DH. lra. }
    destruct (MVT_gen (fun t => K t - s * H t) a b (fun t => K' t - s * H' t)) as (x & Hx & E).
    - intros t Ht. rewrite Rmin_left, Rmax_right in Ht by lra. apply DD. lra.
    - intros t Ht. rewrite Rmin_left, Rmax_right in Ht by lra. apply continuity_pt_filterlim.
      apply (ex_derive_continuous (V:=R_NormedModule) (fun t => K t - s * H t)). eexists. apply DD. lra.
    - rewrite Rmin_left, Rmax_right in Hx by lra. rewrite E. apply Rmult_le_pos; [|lra].
      specialize (B x Hx). apply Rabs_le_between in B. destruct Hs as [Hs|Hs]; rewrite Hs; lra. }
  pose proof (G 1 (or_introl eq_refl)). pose proof (G (-1) (or_intror eq_refl)). apply Rabs_le. lra.
Qed.

Section Second.
Variables f f1 f2 : R -> R.
Variables L M : R.
Hypothesis D1 : forall x, -1 < x -> is_derive f x (f1 x).
Hypothesis D2 : forall x, -1 < x -> is_derive f1 x (f2 x).
Hypothesis B1 : forall x, 0 <= x -> Rabs (f1 x) <= L.
Hypothesis B2 : forall x, 0 <= x -> Rabs (f2 x) <= M.

Lemma s_cont x : -1 < x -> continuous f x.
Proof. intros Hx. apply (ex_derive_continuous (V:=R_NormedModule)). eexists. apply D1, Hx. Qed.
Lemma s_int a b : 0 <= a -> a <= b -> ex_RInt f a b.
Proof.
  intros Ha Hb. apply (ex_RInt_continuous (V:=R_CompleteNormedModule)). intros z Hz.
  rewrite Rmin_left, Rmax_right in Hz by lra. apply s_cont. lra.
Qed.
Lemma s_derive_int a t : 0 <= a -> a <= t -> is_derive (fun t => RInt f a t) t (f t).
Proof.
  intros Ha Ht. apply (is_derive_RInt f (fun t => RInt f a t) a t); [|apply s_cont; lra].
  assert (P : 0 < 1 / 2) by lra. exists (mkposreal _ P). intros y Hy. change (Rabs (y - t) < 1 / 2) in Hy. apply Rabs_def2 in Hy.
  apply (RInt_correct (V:=R_CompleteNormedModule)). apply (ex_RInt_continuous (V:=R_CompleteNormedModule)). intros z Hz.
  apply s_cont. unfold Rmin in Hz. destruct (Rle_dec a y); lra.
Qed.

(** one trapezoid *)
Lemma trapezoid_cell a b : 0 <= a -> a <= b ->
  Rabs ((b - a) * (f a + f b) / 2 - RInt f a b) <= M * (b - a) ^ 3 / 12.
Proof.
  intros Ha Hab.
  set (g := fun t => ((t - a) * f1 t - (f t - f a)) / 2).
  assert (Bg : forall t, a <= t <= b -> Rabs (g t) <= M * (t - a) ^ 2 / 4).
  { intros t Ht. replace (g t) with (g t - g a) by (unfold g; field).
    replace (M * (t - a) ^ 2 / 4) with (M * (t - a) ^ 2 / 4 - M * (a - a) ^ 2 / 4) by field.
    apply (dominated g (fun s => (s - a) * f2 s / 2) (fun s => M * (s - a) ^ 2 / 4) (fun s => M * (s - a) / 2)); [lra| | |].
    - intros s Hs. unfold g. pose proof (D1 s ltac:(lra)) as E1. pose proof (D2 s ltac:(lra)) as E2.
      auto_derive; [repeat split; eexists; eassumption|].
      replace (Derive (fun x => f1 x) s) with (f2 s) by (symmetry; apply is_derive_unique, E2).
      replace (Derive (fun x => f x) s) with (f1 s) by (symmetry; apply is_derive_unique, E1). field.
    - intros s Hs. auto_derive; [exact I|field].
    - intros s Hs. replace ((s - a) * f2 s / 2) with ((s - a) / 2 * f2 s) by field. rewrite Rabs_mult, (Rabs_pos_eq ((s - a) / 2)) by lra.
      replace (M * (s - a) / 2) with ((s - a) / 2 * M) by field. apply Rmult_le_compat_l; [lra|]. apply B2. lra. }
  assert (Z0 : RInt f a a = 0) by exact (RInt_point (V:=R_CompleteNormedModule) a f).
  replace ((b - a) * (f a + f b) / 2 - RInt f a b)
    with (((b - a) * (f a + f b) / 2 - RInt f a b) - ((a - a) * (f a + f a) / 2 - RInt f a a))
    by (rewrite Z0; field).
  replace (M * (b - a) ^ 3 / 12) with (M * (b - a) ^ 3 / 12 - M * (a - a) ^ 3 / 12) by field.
  apply (dominated (fun t => (t - a) * (f a + f t) / 2 - RInt f a t) g (fun t => M * (t - a) ^ 3 / 12) (fun t => M * (t - a) ^ 2 / 4)); [lra| | |exact Bg].
  - intros t Ht. pose proof (D1 t ltac:(lra)) as E1.
    replace (g t) with (minus ((f a + f t) / 2 + (t - a) * f1 t / 2) (f t)) by (unfold g, minus, plus, opp; cbn; field).
    apply (is_derive_minus (V:=R_NormedModule) (fun t => (t - a) * (f a + f t) / 2) (fun t => RInt f a t)); [|apply s_derive_int; lra].
    auto_derive; [eexists; eassumption|].
    replace (Derive (fun x => f x) t) with (f1 t) by (symmetry; apply is_derive_unique, E1). field.
  - intros t Ht. auto_derive; [exact I|field].
Qed.

Lemma slope_bound x y : 0 <= x -> x <= y -> Rabs (f y - f x) <= L * (y - x).
Proof.
  intros Hx Hy. replace (L * (y - x)) with (L * y - L * x) by ring.
  apply (dominated f f1 (fun t => L * t) (fun _ => L)); [lra| | |].
  - intros t Ht. apply D1. lra.
  - intros t Ht. auto_derive; [exact I|ring].
  - intros t Ht. apply B1. lra.
Qed.

Lemma M_pos : 0 <= M.
Proof. pose proof (B2 0 ltac:(lra)). pose proof (Rabs_pos (f2 0)). lra. Qed.
Lemma L_pos : 0 <= L.
Proof. pose proof (B1 0 ltac:(lra)). pose proof (Rabs_pos (f1 0)). lra. Qed.

Lemma cubes u h : 0 <= u <= h -> M * u ^ 3 / 12 <= M * h ^ 2 * u / 12.
Proof.
  intros Hu. assert (u ^ 2 <= h ^ 2) by (apply pow_incr; lra).
  replace (M * u ^ 3 / 12) with (M * u / 12 * u ^ 2) by field. replace (M * h ^ 2 * u / 12) with (M * u / 12 * h ^ 2) by field.
  apply Rmult_le_compat_l; [|lra]. pose proof M_pos. assert (0 <= M * u) by (apply Rmult_le_pos; lra). lra.
Qed.

Lemma partial_cell2 x0 x1 x h : 0 <= x0 -> x0 <= x <= x1 -> x1 - x0 <= h ->
  Rabs ((x - x0) * (f x1 + f x0) / 2 - RInt f x0 x) <= M * h ^ 2 * (x - x0) / 12 + L * h ^ 2 / 8.
Proof.
  intros H0 Hx Hh. pose proof (trapezoid_cell x0 x H0 ltac:(lra)) as T. pose proof (cubes (x - x0) h ltac:(lra)) as C.
  pose proof (slope_bound x x1 ltac:(lra) ltac:(lra)) as S.
  assert (S' : Rabs ((x - x0) / 2 * (f x1 - f x)) <= L * h ^ 2 / 8).
  { rewrite Rabs_mult, (Rabs_pos_eq ((x - x0) / 2)) by lra.
    apply Rle_trans with ((x - x0) / 2 * (L * (x1 - x))); [apply Rmult_le_compat_l; lra|].
    pose proof (chord_bound x0 x1 x L h L ltac:(lra) Hh (conj L_pos (Rle_refl L))) as [_ Q].
    replace ((x - x0) / 2 * (L * (x1 - x))) with (L * ((x - x0) * (x1 - x)) / 2) by field. lra. }
  replace ((x - x0) * (f x1 + f x0) / 2 - RInt f x0 x)
    with (((x - x0) * (f x0 + f x) / 2 - RInt f x0 x) + (x - x0) / 2 * (f x1 - f x)) by field.
  eapply Rle_trans; [apply Rabs_triang|]. lra.
Qed.

Lemma second_order_table h : forall t x0 x1 a x, 0 <= x0 -> inc1 (x0 :: x1 :: t) -> steps h (x0 :: x1 :: t) ->
  x0 <= x <= last (x0 :: x1 :: t) 0 ->
  let xs := x0 :: x1 :: t in
  Rabs (interp_cell x (combine xs (a :: cumtrapz_from a xs (map f xs))) - (a + RInt f x0 x))
    <= M * h ^ 2 * (x - x0) / 12 + L * h ^ 2 / 8.
Proof.
  induction t as [|x2 t IH]; intros x0 x1 a x H0 I S Hx; cbv zeta.
  - destruct I as [I _]. destruct S as [S _]. cbn in Hx. cbn [map cumtrapz_from combine interp_cell last].
    replace (a + (x - x0) / (x1 - x0) * (a + (x1 - x0) * (f x1 + f x0) / 2 - a) - (a + RInt f x0 x))
      with ((x - x0) * (f x1 + f x0) / 2 - RInt f x0 x) by (field; lra).
    now apply partial_cell2.
  - destruct I as [I I']. destruct S as [S S'].
    change (last (x0 :: x1 :: x2 :: t) 0) with (last (x1 :: x2 :: t) 0) in *.
    set (a' := a + (x1 - x0) * (f x1 + f x0) / 2).
    change (combine (x0 :: x1 :: x2 :: t) (a :: cumtrapz_from a (x0 :: x1 :: x2 :: t) (map f (x0 :: x1 :: x2 :: t))))
      with ((x0, a) :: combine (x1 :: x2 :: t) (a' :: cumtrapz_from a' (x1 :: x2 :: t) (map f (x1 :: x2 :: t)))).
    set (rest := combine (x1 :: x2 :: t) (a' :: cumtrapz_from a' (x1 :: x2 :: t) (map f (x1 :: x2 :: t)))) in *.
    assert (Er : exists p q, rest = (x1, a') :: p :: q) by (unfold rest; cbn [map cumtrapz_from combine]; eauto).
    assert (E : interp_cell x ((x0, a) :: rest)
                = if Rlt_dec x x1 then a + (x - x0) / (x1 - x0) * (a' - a) else interp_cell x rest)
      by (destruct Er as (p & q & ->); reflexivity).
    rewrite E. destruct (Rlt_dec x x1) as [Hlt|Hlt].
    + unfold a'.
      replace (a + (x - x0) / (x1 - x0) * (a + (x1 - x0) * (f x1 + f x0) / 2 - a) - (a + RInt f x0 x))
        with ((x - x0) * (f x1 + f x0) / 2 - RInt f x0 x) by (field; lra).
      apply partial_cell2; lra.
    + specialize (IH x1 x2 a' x ltac:(lra) I' S' ltac:(lra)). cbv zeta in IH. fold rest in IH.
      assert (Sp : RInt f x0 x = RInt f x0 x1 + RInt f x1 x)
        by (symmetry; apply (RInt_Chasles (V:=R_CompleteNormedModule)); apply s_int; lra).
      rewrite Sp. pose proof (trapezoid_cell x0 x1 H0 ltac:(lra)) as P. pose proof (cubes (x1 - x0) h ltac:(lra)) as C.
      replace (interp_cell x rest - (a + (RInt f x0 x1 + RInt f x1 x)))
        with ((interp_cell x rest - (a' + RInt f x1 x)) + ((x1 - x0) * (f x0 + f x1) / 2 - RInt f x0 x1)) by (unfold a'; field).
      eapply Rle_trans; [apply Rabs_triang|].
      replace (M * h ^ 2 * (x - x0) / 12) with (M * h ^ 2 * (x - x1) / 12 + M * h ^ 2 * (x1 - x0) / 12) by field. lra.
Qed.
End Second.

(** ** Flat universes of matter and dark energy *)
Section Flat.
Variables k Om : R.
Hypothesis Hk : 0 < k.
Hypothesis HOm : 0 <= Om <= 1.
Definition Q (z : R) : R := 1 - Om + Om * (1 + z) ^ 3.
Definition q0 (z : R) : R := k / sqrt (Q z).
Definition q1 (z : R) : R := - (k * (3 / 2) * (Om * (1 + z) ^ 2) / (Q z * sqrt (Q z))).
Definition q2 (z : R) : R := k * 3 * (Om * (1 + z)) / (Q z * Q z * sqrt (Q z)) * (5 / 4 * (Om * (1 + z) ^ 3) - (1 - Om)).
Lemma Q_pos z : -1 < z -> 0 < Q z.
Proof. intros H. unfold Q. assert (0 < (1 + z) ^ 3) by (apply pow_lt; lra). destruct (Req_dec Om 0) as [->|N]; [lra|]. assert (0 < Om * (1 + z) ^ 3) by (apply Rmult_lt_0_compat; lra). lra. Qed.
Lemma Q_one z : 0 <= z -> 1 <= Q z.
Proof. intros H. unfold Q. assert (1 <= (1 + z) ^ 3) by (apply pow_R1_Rle; lra). nra. Qed.
Lemma q0_derive z : -1 < z -> is_derive q0 z (q1 z).
Proof.
  intros H. pose proof (Q_pos z H) as P. assert (S : 0 < sqrt (Q z)) by (apply sqrt_lt_R0, P).
  assert (DQ : is_derive Q z (3 * Om * (1 + z) ^ 2)) by (unfold Q; auto_derive; [exact I|ring]).
  unfold q0. auto_derive; [repeat split; [eexists; exact DQ|exact P|lra]|].
  replace (Derive (fun x => Q x) z) with (3 * Om * (1 + z) ^ 2) by (symmetry; apply is_derive_unique, DQ).
  unfold q1. set (s := sqrt (Q z)) in *. assert (E : Q z = s * s) by (unfold s; rewrite sqrt_sqrt; lra). rewrite E. field. lra.
Qed.
Lemma q1_derive z : -1 < z -> is_derive q1 z (q2 z).
Proof.
  intros H. pose proof (Q_pos z H) as P. assert (S : 0 < sqrt (Q z)) by (apply sqrt_lt_R0, P).
  assert (DQ : is_derive Q z (3 * Om * (1 + z) ^ 2)) by (unfold Q; auto_derive; [exact I|ring]).
  assert (PS : Q z * sqrt (Q z) <> 0) by (apply Rgt_not_eq, Rmult_lt_0_compat; lra).
  unfold q1. auto_derive; [repeat split; try (eexists; exact DQ); try exact P; exact PS|].
  replace (Derive (fun x => Q x) z) with (3 * Om * (1 + z) ^ 2) by (symmetry; apply is_derive_unique, DQ).
  unfold q2. replace (1 - Om) with (Q z - Om * (1 + z) ^ 3) by (unfold Q; ring).
  set (s := sqrt (Q z)) in *. assert (E : Q z = s * s) by (unfold s; rewrite sqrt_sqrt; lra). rewrite E. field. lra.
Qed.
Lemma matter_le z i : 0 <= z -> (i <= 3)%nat -> 0 <= Om * (1 + z) ^ i <= Q z.
Proof.
  intros H Hi. assert (0 <= (1 + z) ^ i) by (apply pow_le; lra). split; [apply Rmult_le_pos; lra|].
  assert ((1 + z) ^ i <= (1 + z) ^ 3) by (apply Rle_pow; lra || lia).
  assert (Om * (1 + z) ^ i <= Om * (1 + z) ^ 3) by (apply Rmult_le_compat_l; lra). unfold Q. lra.
Qed.
Lemma quotient_le a b m : 0 <= a -> 0 < b -> a <= m * b -> a / b <= m.
Proof. intros Ha Hb H. apply (Rmult_le_reg_r b); [lra|]. unfold Rdiv. rewrite Rmult_assoc, Rinv_l by lra. lra. Qed.
Lemma q1_bound z : 0 <= z -> Rabs (q1 z) <= 3 / 2 * k.
Proof.
  intros H. pose proof (Q_one z H) as P. assert (S : 1 <= sqrt (Q z)) by (rewrite <- sqrt_1; apply sqrt_le_1; lra).
  destruct (matter_le z 2 H ltac:(lia)) as [m1 m2].
  assert (R1 : Q z <= Q z * sqrt (Q z)) by (rewrite <- (Rmult_1_r (Q z)) at 1; apply Rmult_le_compat_l; lra).
  unfold q1. rewrite Rabs_Ropp.
  assert (A : 0 <= k * (3 / 2) * (Om * (1 + z) ^ 2)) by (apply Rmult_le_pos; lra).
  rewrite Rabs_pos_eq by (apply Rmult_le_pos; [exact A|left; apply Rinv_0_lt_compat; lra]).
  apply quotient_le; [exact A|lra|]. replace (3 / 2 * k) with (k * (3 / 2)) by ring. apply Rmult_le_compat_l; lra.
Qed.
Lemma q2_bound z : 0 <= z -> Rabs (q2 z) <= 15 / 4 * k.
Proof.
  intros H. pose proof (Q_one z H) as P. assert (S : 1 <= sqrt (Q z)) by (rewrite <- sqrt_1; apply sqrt_le_1; lra).
  destruct (matter_le z 1 H ltac:(lia)) as [m1 m2]. rewrite pow_1 in m1, m2. destruct (matter_le z 3 H ltac:(lia)) as [m3 m4].
  assert (QQ : 0 < Q z * Q z) by (apply Rmult_lt_0_compat; lra).
  assert (R1 : Q z * Q z <= Q z * Q z * sqrt (Q z)) by (rewrite <- (Rmult_1_r (Q z * Q z)) at 1; apply Rmult_le_compat_l; lra).
  set (w := 5 / 4 * (Om * (1 + z) ^ 3) - (1 - Om)).
  assert (W : Rabs w <= 5 / 4 * Q z) by (unfold w; apply Rabs_le; unfold Q in *; lra).
  unfold q2. fold w. replace (k * 3 * (Om * (1 + z)) / (Q z * Q z * sqrt (Q z)) * w)
    with (k * 3 * (Om * (1 + z)) * w / (Q z * Q z * sqrt (Q z))) by (field; lra).
  unfold Rdiv at 1. rewrite Rabs_mult, (Rabs_pos_eq (/ _)) by (left; apply Rinv_0_lt_compat; lra).
  apply (quotient_le (Rabs (k * 3 * (Om * (1 + z)) * w))); [apply Rabs_pos|lra|].
  rewrite Rabs_mult, (Rabs_pos_eq (k * 3 * _)) by (apply Rmult_le_pos; lra).
  apply Rle_trans with (k * 3 * Q z * (5 / 4 * Q z)).
  - apply Rmult_le_compat; [apply Rmult_le_pos; lra|apply Rabs_pos|apply Rmult_le_compat_l; lra|exact W].
  - replace (k * 3 * Q z * (5 / 4 * Q z)) with (15 / 4 * k * (Q z * Q z)) by field. apply Rmult_le_compat_l; lra.
Qed.
End Flat.

Lemma flat_is_q c Ho Om z : dDcdz c Ho Om 0 (1 - Om) z = q0 (c / Ho) Om z.
Proof.
  unfold dDcdz, z_to_E, E_squared, OmegaKappa, q0, Q. cbv zeta. f_equal. f_equal. ring.
Qed.

Lemma comoving_second c Ho Om max_z dz z : 0 < c -> 0 < Ho -> 0 < max_z -> 0 < dz -> 0 <= Om <= 1 -> 0 <= z <= max_z ->
  Rabs (z_to_Dc c Ho Om 0 (1 - Om) max_z dz z - comoving_distance c Ho Om 0 (1 - Om) z) <= c / Ho * dz ^ 2 * ((5 * z + 3) / 16).
Proof.
  intros Hc HHo Hmax Hdz HOm Hz.
  destruct (grid_shape max_z dz Hmax Hdz) as (x1 & t & E & I & S & B).
  destruct (grid_facts max_z dz Hmax Hdz) as (_ & _ & G2 & G3 & _).
  destruct (DLs_length c Ho Om 0 (1 - Om) max_z dz Hmax Hdz) as [L1 _].
  destruct (DLs_inc c Ho Om 0 (1 - Om) max_z dz Hc HHo Hmax Hdz (expanding_here Om 0 (1 - Om) ltac:(lra) ltac:(lra) ltac:(lra))) as [I1 _].
  assert (Hl : hd 0 (grid_z max_z dz) <= z <= last (grid_z max_z dz) 0) by (rewrite G3, E; lra).
  pose proof (Rdiv_lt_0_compat c Ho Hc HHo) as K.
  unfold z_to_Dc. rewrite (proj1 (interp_inside _ _ L1 G2 I1 z Hl)).
  unfold grid_Dc, cumulative_trapezoid. rewrite E, comoving_is.
  rewrite (map_ext _ _ (flat_is_q c Ho Om)).
  rewrite (RInt_ext (dDcdz c Ho Om 0 (1 - Om)) (q0 (c / Ho) Om)) by (intros; apply flat_is_q).
  pose proof (second_order_table (q0 (c / Ho) Om) (q1 (c / Ho) Om) (q2 (c / Ho) Om) (3 / 2 * (c / Ho)) (15 / 4 * (c / Ho))
    (q0_derive _ _ HOm) (q1_derive _ _ HOm) (q1_bound _ _ K HOm) (q2_bound _ _ K HOm) dz t 0 x1 0 z ltac:(lra) I S ltac:(lra)) as T.
  cbv zeta in T. rewrite Rplus_0_l in T. eapply Rle_trans; [exact T|]. right. field. lra.
Qed.
