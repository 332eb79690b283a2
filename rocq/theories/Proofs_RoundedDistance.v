(** Rounding errors of the distance tables. *)
From Coq Require Import Reals Lra Lia List ZArith Permutation.
From Flocq Require Import Core Relative.
From Coquelicot Require Import Coquelicot.
From Verif Require Import Model_X Model_Likelihood Model_Cosmology Proofs_Cosmology Proofs_Friedmann.
From Verif Require Import Model_Rounding Spec_Rounding Proofs_Rounding Model_RoundedDistance Spec_RoundedDistance.
Import ListNotations.
Open Scope R_scope.

(** ** numbers that are equal up to [k] roundings *)
Section Near.
Variable u : R.
Hypothesis Hu : 0 <= u < 1.
Definition near (k : nat) (x y : R) : Prop := 0 <= x /\ 0 <= y /\ x * (1 - u) ^ k <= y /\ y * (1 - u) ^ k <= x.

Lemma q_pos : forall k, 0 < (1 - u) ^ k <= 1.
Proof.
  intros k. split; [apply pow_lt; lra|]. induction k as [|k IH]; simpl; [lra|]. assert (0 < (1 - u) ^ k) by (apply pow_lt; lra). assert ((1 - u) * (1 - u) ^ k <= 1 * (1 - u) ^ k) by (apply Rmult_le_compat_r; lra). lra.
Qed.
Lemma near_refl : forall x, 0 <= x -> near 0 x x.
Proof. intros x H. unfold near. simpl. lra. Qed.
Lemma near_weaken : forall j k x y, (j <= k)%nat -> near j x y -> near k x y.
Proof.
  intros j k x y H (A & B & C & D). replace k with (j + (k - j))%nat by lia. pose proof (q_pos (k - j)) as Q. pose proof (q_pos j) as Qj.
  unfold near. rewrite pow_add.
  assert (x * (1 - u) ^ j * (1 - u) ^ (k - j) <= x * (1 - u) ^ j * 1) by (apply Rmult_le_compat_l; [apply Rmult_le_pos; lra|lra]).
  assert (y * (1 - u) ^ j * (1 - u) ^ (k - j) <= y * (1 - u) ^ j * 1) by (apply Rmult_le_compat_l; [apply Rmult_le_pos; lra|lra]).
  lra.
Qed.
Lemma near_trans : forall j k x y z, near j x y -> near k y z -> near (j + k) x z.
Proof.
  intros j k x y z (A & B & C & D) (A' & B' & C' & D'). pose proof (q_pos j) as Qj. pose proof (q_pos k) as Qk.
  unfold near. rewrite pow_add.
  assert (x * (1 - u) ^ j * (1 - u) ^ k <= y * (1 - u) ^ k) by (apply Rmult_le_compat_r; lra).
  assert (z * (1 - u) ^ k * (1 - u) ^ j <= y * (1 - u) ^ j) by (apply Rmult_le_compat_r; lra).
  repeat split; lra.
Qed.
Lemma near_mult : forall j k a b a' b', near j a a' -> near k b b' -> near (j + k) (a * b) (a' * b').
Proof.
  intros j k a b a' b' (A & B & C & D) (A' & B' & C' & D'). pose proof (q_pos j) as Qj. pose proof (q_pos k) as Qk.
  unfold near. rewrite pow_add.
  replace (a * b * ((1 - u) ^ j * (1 - u) ^ k)) with ((a * (1 - u) ^ j) * (b * (1 - u) ^ k)) by ring.
  replace (a' * b' * ((1 - u) ^ j * (1 - u) ^ k)) with ((a' * (1 - u) ^ j) * (b' * (1 - u) ^ k)) by ring.
  repeat split; try (apply Rmult_le_pos; lra); apply Rmult_le_compat; try lra; apply Rmult_le_pos; lra.
Qed.
Lemma near_inv : forall k b b', near k b b' -> 0 < b -> 0 < b' -> near k (/ b) (/ b').
Proof.
  intros k b b' (A & B & C & D) P P'. pose proof (q_pos k) as Qk.
  unfold near. pose proof (Rinv_0_lt_compat _ P). pose proof (Rinv_0_lt_compat _ P').
  repeat split; try lra.
  { apply (Rmult_le_reg_l b); [exact P|]. apply (Rmult_le_reg_l b'); [exact P'|].
    replace (b' * (b * (/ b * (1 - u) ^ k))) with (b' * (1 - u) ^ k) by (field; lra). replace (b' * (b * / b')) with b by (field; lra). exact D. }
  apply (Rmult_le_reg_l b); [exact P|]. apply (Rmult_le_reg_l b'); [exact P'|].
  replace (b' * (b * (/ b' * (1 - u) ^ k))) with (b * (1 - u) ^ k) by (field; lra). replace (b' * (b * / b)) with b' by (field; lra). exact C.
Qed.
Lemma near_plus : forall k a b a' b', near k a a' -> near k b b' -> near k (a + b) (a' + b').
Proof. intros k a b a' b' (A & B & C & D) (A' & B' & C' & D'). unfold near. repeat split; lra. Qed.
Lemma near_sqrt : forall k a a', near k a a' -> near k (sqrt a) (sqrt a').
Proof.
  intros k a a' (A & B & C & D). pose proof (q_pos k) as Qk. unfold near.
  assert (S1 : forall t, 0 <= t -> sqrt t * (1 - u) ^ k <= sqrt (t * (1 - u) ^ k)).
  { intros t Ht. rewrite sqrt_mult by lra. apply Rmult_le_compat_l; [apply sqrt_pos|].
    rewrite <- (sqrt_square ((1 - u) ^ k)) at 1 by lra. apply sqrt_le_1_alt.
    rewrite <- (Rmult_1_r ((1 - u) ^ k)) at 3. apply Rmult_le_compat_l; lra. }
  repeat split; try apply sqrt_pos.
  { eapply Rle_trans; [apply S1; lra|]. now apply sqrt_le_1_alt. }
  eapply Rle_trans; [apply S1; lra|]. now apply sqrt_le_1_alt.
Qed.
Lemma near_rel1 : forall x y, 0 <= x -> Rabs (y - x) <= u * Rabs x -> near 1 x y.
Proof.
  intros x y Hx H. rewrite (Rabs_pos_eq x) in H by lra. apply Rabs_le_between in H.
  assert (u * x <= 1 * x) by (apply Rmult_le_compat_r; lra).
  assert (0 <= u * u * x) by (apply Rmult_le_pos; [apply Rmult_le_pos; lra|lra]).
  unfold near. rewrite pow_1. repeat split; try lra.
  assert (y * (1 - u) <= (x + u * x) * (1 - u)) by (apply Rmult_le_compat_r; lra). lra.
Qed.
Lemma near_relative : forall k x y, INR k * u < 1 -> near k x y -> Rabs (y - x) <= roundings u k * x.
Proof.
  intros k x y Hk (A & B & C & D). pose proof (q_pos k) as Qk.
  assert (Bern : 1 - INR k * u <= (1 - u) ^ k).
  { clear Hk C D Qk. induction k as [|k IH]; [simpl; lra|].
    rewrite S_INR. cbn [pow]. assert (0 <= INR k * (u * u)) by (apply Rmult_le_pos; [apply pos_INR|apply Rmult_le_pos; lra]).
    assert ((1 - u) * (1 - INR k * u) <= (1 - u) * (1 - u) ^ k) by (apply Rmult_le_compat_l; lra). lra. }
  set (p := INR k * u) in *. assert (Hp : 0 <= p) by (unfold p; apply Rmult_le_pos; [apply pos_INR|lra]).
  unfold roundings. fold p. unfold of_relative.
  assert (P1 : p <= p / (1 - p)).
  { apply (Rmult_le_reg_r (1 - p)); [lra|]. unfold Rdiv. rewrite Rmult_assoc, Rinv_l by lra.
    assert (0 <= p * p) by (apply Rmult_le_pos; lra). lra. }
  assert (Lo : x * (1 - p) <= y).
  { eapply Rle_trans; [|exact C]. apply Rmult_le_compat_l; lra. }
  assert (Hi : y * (1 - p) <= x).
  { eapply Rle_trans; [|exact D]. apply Rmult_le_compat_l; lra. }
  assert (Hi' : y <= x + p / (1 - p) * x).
  { apply (Rmult_le_reg_r (1 - p)); [lra|]. replace ((x + p / (1 - p) * x) * (1 - p)) with x by (field; lra). exact Hi. }
  assert (x * p <= p / (1 - p) * x) by (rewrite (Rmult_comm x); apply Rmult_le_compat_r; lra).
  apply Rabs_le. lra.
Qed.
End Near.

Section Fl.
Variables emin prec : Z.
Context {Hprec : Prec_gt_0 prec}.
Hypothesis Hone : (emin <= - prec - 1)%Z.
Notation u := (unit_roundoff prec).
Notation flt := (is_float emin prec).
Notation fl := (fl emin prec).
Notation N0 := (smallest_normal emin prec).
Notation near := (near u).

Lemma u01 : 0 <= u < 1.
Proof. pose proof (u_bounds prec). lra. Qed.
Lemma N0_pos : 0 < N0.
Proof. apply bpow_gt_0. Qed.
Lemma N0_le_1 : N0 <= 1.
Proof. unfold smallest_normal. change 1 with (bpow radix2 0). apply bpow_le. unfold Prec_gt_0 in Hprec. lia. Qed.
Lemma flt_1 : flt 1.
Proof. now apply float_1. Qed.
Lemma near_fl : forall x, x = 0 \/ N0 <= x -> near 1 x (fl x).
Proof.
  intros x [->|H].
  { unfold Model_Rounding.fl. rewrite round_0; [|apply valid_rnd_N]. apply near_weaken with 0%nat; [exact u01|lia|]. apply near_refl. lra. }
  pose proof N0_pos. apply near_rel1; [exact u01|lra|].
  pose proof (relative_error_N_FLT radix2 emin prec Hprec (fun x => negb (Z.even x)) x) as E.
  rewrite <- u_is_u_ro. unfold u_ro. apply E. rewrite Rabs_pos_eq by lra. exact H.
Qed.
Lemma near_sum2 : forall x y, flt x -> flt y -> 0 <= x + y -> near 1 (x + y) (fl (x + y)).
Proof. intros x y Fx Fy H. apply near_rel1; [exact u01|exact H|]. now apply fl_add. Qed.
Lemma fl_ge : forall x y, flt x -> x <= y -> x <= fl y.
Proof. intros x y Fx H. rewrite <- (fl_id emin prec x Fx). now apply fl_mono. Qed.
Lemma fl_0 : fl 0 = 0.
Proof. apply fl_id; apply float_0. Qed.
End Fl.

(** ** interpolation in one cell *)
Section Chord.
Variables emin prec : Z.
Context {Hprec : Prec_gt_0 prec}.
Notation u := (unit_roundoff prec).
Notation flt := (is_float emin prec).
Notation fl := (fl emin prec).
Notation tiny := (bpow radix2 emin).
Hypothesis Hu : u <= / 100.
Hypothesis Hone : (emin <= - prec - 1)%Z.

Lemma fraction_error : forall x x0 x1, flt x -> flt x0 -> flt x1 -> x0 < x1 -> x0 <= x <= x1 ->
  let q := fl (fl (x - x0) / fl (x1 - x0)) in
  0 <= q <= 1 /\ Rabs (q - (x - x0) / (x1 - x0)) <= 31 / 10 * u + / 2 * tiny.
Proof.
  intros x x0 x1 F F0 F1 H01 Hx q. pose proof (u_bounds prec) as U.
  pose proof (fl_sub emin prec x x0 F F0) as E1. pose proof (fl_sub emin prec x1 x0 F1 F0) as E2.
  assert (M : fl (x - x0) <= fl (x1 - x0)) by (apply fl_mono; [exact Hprec|lra]).
  assert (Z0 : 0 <= fl (x - x0)).
  { rewrite <- (fl_0 emin prec). apply fl_mono; [exact Hprec|lra]. }
  set (a := fl (x - x0)) in *. set (b := fl (x1 - x0)) in *.
  rewrite (Rabs_pos_eq (x - x0)) in E1 by lra. rewrite (Rabs_pos_eq (x1 - x0)) in E2 by lra.
  apply Rabs_le_between in E1, E2.
  set (A := x - x0) in *. set (B := x1 - x0) in *. assert (HB : 0 < B) by (unfold B; lra). assert (HA : 0 <= A <= B) by (unfold A, B; lra).
  assert (uA : u * A <= u * B) by (apply Rmult_le_compat_l; lra).
  assert (uB : u * B <= / 100 * B) by (apply Rmult_le_compat_r; lra).
  assert (Pb : 0 < b) by lra.
  assert (Q : 0 <= a / b <= 1).
  { split; [apply Rmult_le_pos; [lra|left; now apply Rinv_0_lt_compat]|].
    apply (Rmult_le_reg_r b); [exact Pb|]. unfold Rdiv. rewrite Rmult_assoc, Rinv_l by lra. lra. }
  assert (Q1 : 0 <= q <= 1).
  { split.
    { rewrite <- (fl_0 emin prec). apply fl_mono; [exact Hprec|apply Q]. }
    rewrite <- (fl_id emin prec 1) by (apply flt_1; assumption). apply fl_mono; [exact Hprec|apply Q]. }
  split; [exact Q1|].
  pose proof (fl_err emin prec (a / b)) as E3. rewrite (Rabs_pos_eq (a / b)) in E3 by lra.
  assert (D : Rabs (a / b - A / B) <= 2.05 * u).
  { assert (Ea : a / b - A / B = ((a - A) - (b - B) * (A / B)) / b) by (field; lra).
    rewrite Ea. unfold Rdiv at 1. rewrite Rabs_mult, (Rabs_pos_eq (/ b)) by (left; now apply Rinv_0_lt_compat).
    apply (Rmult_le_reg_r b); [exact Pb|]. rewrite Rmult_assoc, Rinv_l, Rmult_1_r by lra.
    assert (AB : 0 <= A / B <= 1).
    { split; [apply Rmult_le_pos; [lra|left; now apply Rinv_0_lt_compat]|].
      apply (Rmult_le_reg_r B); [exact HB|]. unfold Rdiv. rewrite Rmult_assoc, Rinv_l by lra. lra. }
    eapply Rle_trans; [apply Rabs_triang|]. rewrite Rabs_Ropp, Rabs_mult, (Rabs_pos_eq (A / B)) by lra.
    assert (R1 : Rabs (a - A) <= u * B) by (apply Rabs_le; lra).
    assert (R2 : Rabs (b - B) <= u * B) by (apply Rabs_le; lra).
    assert (R3 : Rabs (b - B) * (A / B) <= u * B * 1) by (apply Rmult_le_compat; [apply Rabs_pos|lra|exact R2|lra]).
    assert (R4 : 99 / 100 * (u * B) <= u * b).
    { replace (99 / 100 * (u * B)) with (u * (99 / 100 * B)) by ring. apply Rmult_le_compat_l; lra. }
    replace (2.05 * u * b) with (2.05 * (u * b)) by ring. lra. }
  assert (u * (a / b) <= u * 1) by (apply Rmult_le_compat_l; lra).
  replace (q - A / B) with ((q - a / b) + (a / b - A / B)) by ring.
  eapply Rle_trans; [apply Rabs_triang|]. unfold q. lra.
Qed.

Lemma chord_error : forall e M x x0 x1 f0 f1 g0 g1, 0 <= e <= / 8 ->
  flt x -> flt x0 -> flt x1 -> 2 * bpow radix2 (2 - 2 * prec) <= x1 - x0 -> x0 <= x <= x1 ->
  flt g0 -> flt g1 -> 0 <= f0 <= M -> 0 <= f1 <= M -> Rabs (g0 - f0) <= e * f0 -> Rabs (g1 - f1) <= e * f1 ->
  Rabs (fl_chord emin prec x x0 g0 x1 g1 - (f0 + (x - x0) / (x1 - x0) * (f1 - f0))) <= interp_error u tiny e M.
Proof.
  intros e M x x0 x1 f0 f1 g0 g1 He F F0 F1 Hlo Hx G0 G1 B0 B1 E0 E1. pose proof (u_bounds prec) as U.
  pose proof (bpow_gt_0 radix2 (2 - 2 * prec)) as Pe. pose proof (bpow_gt_0 radix2 emin) as Pt.
  destruct (fraction_error x x0 x1 F F0 F1 ltac:(lra) Hx) as [Q1 Q2].
  unfold fl_chord. cbv zeta.
  pose proof (fl_sub emin prec x1 x0 F1 F0) as Ed. rewrite (Rabs_pos_eq (x1 - x0)) in Ed by lra. apply Rabs_le_between in Ed.
  assert (u * (x1 - x0) <= / 100 * (x1 - x0)) by (apply Rmult_le_compat_r; lra).
  destruct (Rle_dec (Rabs (fl (x1 - x0))) (bpow radix2 (2 - 2 * prec))) as [L|L].
  { exfalso. rewrite Rabs_pos_eq in L by lra. lra. }
  set (q := fl (fl (x - x0) / fl (x1 - x0))) in *. set (l := (x - x0) / (x1 - x0)) in *.
  assert (Bl : 0 <= l <= 1).
  { unfold l. split; [apply Rmult_le_pos; [lra|left; apply Rinv_0_lt_compat; lra]|].
    apply (Rmult_le_reg_r (x1 - x0)); [lra|]. unfold Rdiv. rewrite Rmult_assoc, Rinv_l by lra. lra. }
  assert (HM : 0 <= M) by lra.
  assert (e0 : e * f0 <= e * M) by (apply Rmult_le_compat_l; lra).
  assert (e1 : e * f1 <= e * M) by (apply Rmult_le_compat_l; lra).
  assert (eM : e * M <= / 8 * M) by (apply Rmult_le_compat_r; lra).
  assert (e0' : 0 <= e * M) by (apply Rmult_le_pos; lra).
  apply Rabs_le_between in E0, E1.
  assert (ef0 : e * f0 <= / 8 * f0) by (apply Rmult_le_compat_r; lra).
  assert (ef1 : e * f1 <= / 8 * f1) by (apply Rmult_le_compat_r; lra).
  set (D := g1 - g0). assert (HD : Rabs D <= 9 / 8 * M) by (unfold D; apply Rabs_le; lra).
  assert (uM : u * M <= / 100 * M) by (apply Rmult_le_compat_r; lra). assert (uM0 : 0 <= u * M) by (apply Rmult_le_pos; lra).
  pose proof (fl_sub emin prec g1 g0 G1 G0) as ED. fold D in ED.
  assert (uD : u * Rabs D <= 9 / 8 * (u * M)).
  { replace (9 / 8 * (u * M)) with (u * (9 / 8 * M)) by ring. apply Rmult_le_compat_l; lra. }
  set (D' := fl D) in *. assert (HD' : Rabs D' <= 1.137 * M).
  { replace D' with ((D' - D) + D) by ring. eapply Rle_trans; [apply Rabs_triang|]. lra. }
  pose proof (Rabs_pos D') as PD'.
  pose proof (fl_err emin prec (q * D')) as EP. rewrite Rabs_mult, (Rabs_pos_eq q) in EP by lra.
  set (P := fl (q * D')) in *.
  assert (qD : q * Rabs D' <= 1.137 * M).
  { assert (q * Rabs D' <= 1 * Rabs D') by (apply Rmult_le_compat_r; lra). lra. }
  assert (uqD : u * (q * Rabs D') <= 1.137 * (u * M)).
  { replace (1.137 * (u * M)) with (u * (1.137 * M)) by ring. apply Rmult_le_compat_l; lra. }
  assert (T1 : Rabs ((q - l) * D') <= 1.137 * (31 / 10 * (u * M) + / 2 * (tiny * M))).
  { rewrite Rabs_mult. replace (1.137 * (31 / 10 * (u * M) + / 2 * (tiny * M))) with ((31 / 10 * u + / 2 * tiny) * (1.137 * M)) by ring.
    apply Rmult_le_compat; try apply Rabs_pos; assumption. }
  assert (T2 : Rabs (l * (D' - D)) <= 9 / 8 * (u * M)).
  { rewrite Rabs_mult, (Rabs_pos_eq l) by lra. assert (l * Rabs (D' - D) <= 1 * Rabs (D' - D)) by (apply Rmult_le_compat_r; [apply Rabs_pos|lra]). lra. }
  assert (PP : Rabs (P - l * D) <= 6 * (u * M) + 0.57 * (tiny * M) + / 2 * tiny).
  { replace (P - l * D) with ((P - q * D') + ((q - l) * D' + l * (D' - D))) by ring.
    eapply Rle_trans; [apply Rabs_triang|]. pose proof (Rabs_triang ((q - l) * D') (l * (D' - D))).
    assert (0 <= tiny * M) by (apply Rmult_le_pos; lra). lra. }
  assert (CV : Rabs (g0 + l * D - (f0 + l * (f1 - f0))) <= e * M).
  { replace (g0 + l * D - (f0 + l * (f1 - f0))) with ((1 - l) * (g0 - f0) + l * (g1 - f1)) by (unfold D; ring).
    assert (Ra : (1 - l) * (- (e * M)) <= (1 - l) * (g0 - f0) <= (1 - l) * (e * M)) by (split; apply Rmult_le_compat_l; lra).
    assert (Rb : l * (- (e * M)) <= l * (g1 - f1) <= l * (e * M)) by (split; apply Rmult_le_compat_l; lra).
    apply Rabs_le. lra. }
  assert (FX : 0 <= f0 + l * (f1 - f0) <= M).
  { replace (f0 + l * (f1 - f0)) with ((1 - l) * f0 + l * f1) by ring.
    assert (0 <= (1 - l) * f0 <= (1 - l) * M) by (split; [apply Rmult_le_pos; lra|apply Rmult_le_compat_l; lra]).
    assert (0 <= l * f1 <= l * M) by (split; [apply Rmult_le_pos; lra|apply Rmult_le_compat_l; lra]). lra. }
  assert (FP : flt P) by (apply fl_float; exact Hprec).
  pose proof (fl_add emin prec g0 P G0 FP) as ES.
  assert (Err : Rabs (g0 + P - (f0 + l * (f1 - f0))) <= e * M + 6 * (u * M) + 0.57 * (tiny * M) + / 2 * tiny).
  { replace (g0 + P - (f0 + l * (f1 - f0))) with ((P - l * D) + (g0 + l * D - (f0 + l * (f1 - f0)))) by ring.
    eapply Rle_trans; [apply Rabs_triang|]. lra. }
  assert (tM : 0 <= tiny * M) by (apply Rmult_le_pos; lra).
  assert (HS : Rabs (g0 + P) <= 1.2 * M + 0.57 * (tiny * M) + / 2 * tiny).
  { apply Rabs_le_between in Err. apply Rabs_le. lra. }
  assert (HuS : u * Rabs (g0 + P) <= 1.2 * (u * M) + / 100 * (0.57 * (tiny * M) + / 2 * tiny)).
  { assert (u * Rabs (g0 + P) <= u * (1.2 * M + 0.57 * (tiny * M) + / 2 * tiny)) by (apply Rmult_le_compat_l; lra).
    assert (u * (0.57 * (tiny * M) + / 2 * tiny) <= / 100 * (0.57 * (tiny * M) + / 2 * tiny)) by (apply Rmult_le_compat_r; lra). lra. }
  replace (fl (g0 + P) - (f0 + l * (f1 - f0))) with ((fl (g0 + P) - (g0 + P)) + (g0 + P - (f0 + l * (f1 - f0)))) by ring.
  eapply Rle_trans; [apply Rabs_triang|]. unfold interp_error. lra.
Qed.
End Chord.

(** ** interpolation in a table *)
Section Table.
Variables emin prec : Z.
Context {Hprec : Prec_gt_0 prec}.
Notation u := (unit_roundoff prec).
Notation flt := (is_float emin prec).
Notation fl := (fl emin prec).
Notation tiny := (bpow radix2 emin).
Hypothesis Hu : u <= / 100.
Hypothesis Hone : (emin <= - prec - 1)%Z.
Variables e M lo hi : R.
Hypothesis He : 0 <= e <= / 8.
Hypothesis Hlo : 2 * bpow radix2 (2 - 2 * prec) <= lo.
Definition entry (t g : R) : Prop := flt g /\ 0 <= t <= M /\ Rabs (g - t) <= e * t.

Lemma cell_table_error : forall zs ts gs x, (2 <= length zs)%nat -> length zs = length ts -> Forall2 entry ts gs ->
  apart lo hi zs -> List.Forall flt zs -> flt x -> hd 0 zs <= x <= last zs 0 ->
  Rabs (fl_interp_cell emin prec x (combine zs gs) - interp_cell x (combine zs ts)) <= interp_error u tiny e M.
Proof.
  induction zs as [|x0 [|x1 zs] IH]; intros ts gs x HL EL HT HA HF Fx Hx; cbn [length] in *; try lia.
  destruct ts as [|t0 [|t1 ts]]; cbn [length] in *; try lia.
  inversion HT as [|? g0 ? gs0 En0 HT' E0 E1]; subst. inversion HT' as [|? g1 ? gs1 En1 HT'' E0 E1]; subst.
  destruct HA as [[A1 A2] HA]. inversion HF as [|? ? F0 HF']; subst. inversion HF' as [|? ? F1 HF'']; subst.
  assert (Here : x0 <= x <= x1 -> Rabs (fl_chord emin prec x x0 g0 x1 g1 - (t0 + (x - x0) / (x1 - x0) * (t1 - t0))) <= interp_error u tiny e M).
  { intros Hc. destruct En0 as (a0 & b0 & c0). destruct En1 as (a1 & b1 & c1). apply chord_error; try assumption. lra. }
  destruct zs as [|x2 zs].
  { destruct ts; [|discriminate]. inversion HT''; subst. cbn [combine fl_interp_cell interp_cell]. apply Here. cbn [hd last] in Hx. lra. }
  destruct ts as [|t2 ts]; [discriminate|]. inversion HT'' as [|? g2 ? gs2 En2 HT3 E0 E1]; subst.
  change (fl_interp_cell emin prec x (combine (x0 :: x1 :: x2 :: zs) (g0 :: g1 :: g2 :: gs2)))
    with (if Rlt_dec x x1 then fl_chord emin prec x x0 g0 x1 g1 else fl_interp_cell emin prec x (combine (x1 :: x2 :: zs) (g1 :: g2 :: gs2))).
  change (interp_cell x (combine (x0 :: x1 :: x2 :: zs) (t0 :: t1 :: t2 :: ts)))
    with (if Rlt_dec x x1 then t0 + (x - x0) / (x1 - x0) * (t1 - t0) else interp_cell x (combine (x1 :: x2 :: zs) (t1 :: t2 :: ts))).
  destruct (Rlt_dec x x1) as [L|L]; [apply Here; cbn [hd] in Hx; lra|].
  apply IH; try assumption; try (cbn [length] in *; lia). 
  change (last (x0 :: x1 :: x2 :: zs) 0) with (last (x1 :: x2 :: zs) 0) in Hx. cbn [hd] in *. lra.
Qed.
Lemma table_error : forall zs ts gs x, (2 <= length zs)%nat -> length zs = length ts -> Forall2 entry ts gs ->
  apart lo hi zs -> List.Forall flt zs -> flt x -> hd 0 zs <= x <= last zs 0 ->
  Rabs (fl_interp emin prec x zs gs - interp_cell x (combine zs ts)) <= interp_error u tiny e M.
Proof.
  intros zs ts gs x HL EL HT HA HF Fx Hx. unfold fl_interp.
  destruct (Rlt_dec x (hd 0 zs)); [lra|]. destruct (Rlt_dec (last zs 0) x); [lra|]. now apply cell_table_error.
Qed.
End Table.

(** ** the exact tables as sums of areas *)
Fixpoint areas (f : R -> R) (zs : list R) : list R :=
  match zs with
  | x0 :: ((x1 :: _) as r) => (x1 - x0) * (f x1 + f x0) / 2 :: areas f r
  | _ => []
  end.
Lemma areas_length : forall f zs, length (areas f zs) = (length zs - 1)%nat.
Proof.
  intros f. induction zs as [|x0 [|x1 zs] IH]; try reflexivity.
  change (areas f (x0 :: x1 :: zs)) with ((x1 - x0) * (f x1 + f x0) / 2 :: areas f (x1 :: zs)). cbn [length] in *. lia.
Qed.
Lemma seq_map_S : forall (f : nat -> R) n i, map f (seq (S i) n) = map (fun j => f (S j)) (seq i n).
Proof. intros f. induction n as [|n IH]; intros i; [reflexivity|]. cbn [seq map]. f_equal. apply IH. Qed.
Lemma cumtrapz_sums : forall f zs a, cumtrapz_from a zs (map f zs) = map (fun i => a + sum_of (firstn i (areas f zs))) (seq 1 (length (areas f zs))).
Proof.
  intros f. induction zs as [|x0 [|x1 zs] IH]; intros a; try reflexivity.
  change (areas f (x0 :: x1 :: zs)) with ((x1 - x0) * (f x1 + f x0) / 2 :: areas f (x1 :: zs)).
  set (s := (x1 - x0) * (f x1 + f x0) / 2).
  change (cumtrapz_from a (x0 :: x1 :: zs) (map f (x0 :: x1 :: zs))) with ((a + s) :: cumtrapz_from (a + s) (x1 :: zs) (map f (x1 :: zs))).
  rewrite IH. cbn [length]. cbn [seq map]. f_equal.
  { unfold sum_of. cbn [firstn fold_right]. ring. }
  rewrite (seq_map_S _ _ 1). apply map_ext. intros i. cbn [firstn]. unfold sum_of. cbn [fold_right]. ring.
Qed.

Section Sums.
Variables emin prec : Z.
Context {Hprec : Prec_gt_0 prec}.
Notation u := (unit_roundoff prec).
Notation flt := (is_float emin prec).
Notation fl := (fl emin prec).

Lemma tree_near : forall t, List.Forall (fun x => flt x /\ 0 <= x) (leaves t) ->
  flt (fl_sum emin prec t) /\ near u (depth t) (sum_of (leaves t)) (fl_sum emin prec t).
Proof.
  induction t as [x|a IHa b IHb]; intros F.
  { cbn [leaves fl_sum depth] in *. inversion F as [|? ? [F1 F2] _]; subst. split; [exact F1|].
    unfold sum_of. cbn [fold_right]. rewrite Rplus_0_r. apply near_refl. exact F2. }
  cbn [leaves fl_sum depth] in *. apply Forall_app in F. destruct F as [Fa Fb].
  destruct (IHa Fa) as [Xa Na]. destruct (IHb Fb) as [Xb Nb]. split; [apply fl_float; exact Hprec|].
  rewrite sum_of_app. set (h := Nat.max (depth a) (depth b)).
  apply (near_weaken u (u01 prec) (depth a) h) in Na; [|unfold h; lia]. apply (near_weaken u (u01 prec) (depth b) h) in Nb; [|unfold h; lia].
  pose proof (near_plus u h _ _ _ _ Na Nb) as Nab.
  assert (P : 0 <= fl_sum emin prec a + fl_sum emin prec b) by apply Nab.
  pose proof (near_trans u (u01 prec) _ _ _ _ _ Nab (near_sum2 emin prec _ _ Xa Xb P)) as T.
  replace (S h) with (h + 1)%nat by lia. exact T.
Qed.
Lemma sum_near : forall k A B, Forall2 (near u k) A B -> near u k (sum_of A) (sum_of B).
Proof.
  intros k A B F. induction F as [|a b A B H F IH].
  { unfold sum_of. cbn [fold_right]. apply near_weaken with 0%nat; [exact (u01 prec)|lia|]. apply near_refl. lra. }
  unfold sum_of in *. cbn [fold_right]. now apply near_plus.
Qed.
Lemma Forall2_firstn : forall {X Y} (P : X -> Y -> Prop) i a b, Forall2 P a b -> Forall2 P (firstn i a) (firstn i b).
Proof.
  intros X Y P. induction i as [|i IH]; intros a b F; [constructor|]. inversion F; subst; cbn [firstn]; constructor; auto.
Qed.
Lemma prefix_near : forall order N h k A B i, adds_up order -> chains order N h -> (length B <= N)%nat ->
  Forall2 (near u k) A B -> List.Forall flt B ->
  flt (fl_sum emin prec (order (firstn i B))) /\ near u (k + h) (sum_of (firstn i A)) (fl_sum emin prec (order (firstn i B))).
Proof.
  intros order N h k A B i Ho Hc HL F FB.
  destruct (Ho (firstn i B)) as [z Pz].
  assert (FL : List.Forall (fun x => flt x /\ 0 <= x) (leaves (order (firstn i B)))).
  { apply Forall_forall. intros x Hx. apply (Permutation_in _ Pz) in Hx. apply in_app_or in Hx. destruct Hx as [Hx|Hx].
    { assert (HxB : In x B) by (rewrite <- (firstn_skipn i B); apply in_or_app; now left).
      split; [now apply (proj1 (Forall_forall _ _) FB)|].
      clear -F HxB. induction F as [|a b A B H F IH]; [destruct HxB|]. destruct HxB as [<-|HxB]; [apply H|auto]. }
    apply repeat_spec in Hx. subst x. split; [apply float_0|lra]. }
  destruct (tree_near _ FL) as [X T]. split; [exact X|].
  assert (ES : sum_of (leaves (order (firstn i B))) = sum_of (firstn i B)).
  { rewrite (sum_of_perm _ _ Pz), sum_of_app, sum_of_zeros. ring. }
  rewrite ES in T.
  assert (HD : (depth (order (firstn i B)) <= h)%nat) by (apply Hc; rewrite firstn_length; lia).
  apply (near_weaken u (u01 prec) _ h) in T; [|exact HD].
  exact (near_trans u (u01 prec) _ _ _ _ _ (sum_near k _ _ (Forall2_firstn _ i _ _ F)) T).
Qed.
Lemma cumsum_near : forall order N h k A B, adds_up order -> chains order N h -> (length B <= N)%nat ->
  Forall2 (near u k) A B -> List.Forall flt B ->
  Forall2 (fun x y => flt y /\ near u (k + h) x y) (map (fun i => 0 + sum_of (firstn i A)) (seq 1 (length A))) (fl_cumsum emin prec order B).
Proof.
  intros order N h k A B Ho Hc HL F FB. unfold fl_cumsum.
  assert (EL : length A = length B) by (clear -F; induction F; cbn [length]; lia).
  rewrite EL. generalize (seq 1 (length B)). induction l as [|i l IH]; [constructor|]. cbn [map]. constructor; [|exact IH].
  rewrite Rplus_0_l. now apply prefix_near with N.
Qed.
End Sums.

(** ** the expansion rate and the distance per redshift *)
Section Expansion.
Variables emin prec : Z.
Context {Hprec : Prec_gt_0 prec}.
Notation u := (unit_roundoff prec).
Notation flt := (is_float emin prec).
Notation fl := (fl emin prec).
Notation N0 := (smallest_normal emin prec).
Hypothesis Hu : u <= / 100.
Hypothesis Hone : (emin <= - prec - 1)%Z.
Variables ratio Om Or Ol Ok : R.
Hypothesis Cm : coefficient emin prec Om.
Hypothesis Cr : coefficient emin prec Or.
Hypothesis Cl : coefficient emin prec Ol.
Hypothesis Ck : coefficient emin prec Ok.
Hypothesis Hsum : 0 < Om + Or + Ol + Ok.
Hypothesis Fratio : flt ratio.
Hypothesis Hratio : 0 < ratio.
Notation h2 := (hubble_squared Om Or Ol Ok).
Notation f := (per_redshift ratio Om Or Ol Ok).
Notation U := (u01 prec).

Lemma coefficient_pos : forall x, coefficient emin prec x -> 0 <= x.
Proof. intros x [_ [->|H]]; [lra|]. pose proof (N0_pos emin prec). lra. Qed.
Lemma near_mul_fl : forall j k a b a' b', near u j a a' -> near u k b b' -> a' * b' = 0 \/ N0 <= a' * b' -> near u (j + k + 1) (a * b) (fl (a' * b')).
Proof.
  intros j k a b a' b' A B H. apply (near_trans u U) with (a' * b'); [now apply near_mult; [exact U| |]|now apply near_fl].
Qed.
Lemma near_add_fl : forall k a b a' b', near u k a a' -> near u k b b' -> flt a' -> flt b' -> near u (k + 1) (a + b) (fl (a' + b')).
Proof.
  intros k a b a' b' A B Fa Fb. pose proof (near_plus u k _ _ _ _ A B) as P. apply (near_trans u U) with (a' + b'); [exact P|].
  apply near_sum2; try assumption. apply P.
Qed.
Lemma times_power : forall c p, coefficient emin prec c -> 1 <= p -> c * p = 0 \/ N0 <= c * p.
Proof.
  intros c p [_ [->|H]] Hp; [left; ring|right]. pose proof (N0_pos emin prec).
  assert (c * 1 <= c * p) by (apply Rmult_le_compat_l; lra). lra.
Qed.
Lemma E_near : forall z, flt z -> 0 <= z -> near u 10 (sqrt (h2 z)) (fl_E emin prec Om Or Ol Ok z) /\ N0 <= fl_E emin prec Om Or Ol Ok z.
Proof.
  intros z Fz Hz. pose proof (flt_1 emin prec Hone) as F1. pose proof (N0_pos emin prec) as PN. pose proof (N0_le_1 emin prec Hone) as PN1.
  unfold fl_E. cbv zeta. set (a := fl (1 + z)).
  assert (Na : near u 1 (1 + z) a) by (apply near_sum2; try assumption; lra).
  assert (Ga : 1 <= a) by (apply fl_ge; [exact Hprec|exact F1|lra]).
  assert (One : forall p q, 1 <= p -> 1 <= q -> 1 <= p * q).
  { intros p q Hp Hq. assert (1 * 1 <= p * q) by (apply Rmult_le_compat; lra). lra. }
  assert (FG : forall p q, 1 <= p -> 1 <= q -> 1 <= fl (p * q)) by (intros; apply fl_ge; [exact Hprec|exact F1|now apply One]).
  set (p2 := fl (a * a)). assert (G2 : 1 <= p2) by (now apply FG).
  assert (N2 : near u 3 ((1 + z) * (1 + z)) p2) by (apply (near_mul_fl 1 1); try assumption; right; pose proof (One a a Ga Ga); lra).
  set (p3 := fl (a * p2)). assert (G3 : 1 <= p3) by (now apply FG).
  assert (N3 : near u 5 ((1 + z) * ((1 + z) * (1 + z))) p3) by (apply (near_mul_fl 1 3); try assumption; right; pose proof (One a p2 Ga G2); lra).
  set (p4 := fl (p2 * p2)). assert (G4 : 1 <= p4) by (now apply FG).
  assert (N4 : near u 7 ((1 + z) * (1 + z) * ((1 + z) * (1 + z))) p4) by (apply (near_mul_fl 3 3); try assumption; right; pose proof (One p2 p2 G2 G2); lra).
  assert (Coef : forall k c x p, coefficient emin prec c -> 1 <= p -> near u k x p -> flt (fl (c * p)) /\ c <= fl (c * p) /\ near u (k + 1) (c * x) (fl (c * p))).
  { intros k c x p Hc Hp Np. pose proof (coefficient_pos c Hc) as Pc. split; [apply fl_float; exact Hprec|]. split.
    { apply fl_ge; [exact Hprec|apply Hc|]. assert (c * 1 <= c * p) by (apply Rmult_le_compat_l; lra). lra. }
    change (k + 1)%nat with (0 + k + 1)%nat. apply near_mul_fl; [now apply near_refl|exact Np|now apply times_power]. }
  destruct (Coef 3%nat Ok _ p2 Ck G2 N2) as (Fk & Gk & Nk). destruct (Coef 5%nat Om _ p3 Cm G3 N3) as (Fm & Gm & Nm). destruct (Coef 7%nat Or _ p4 Cr G4 N4) as (Fr & Gr & Nr).
  set (k' := fl (Ok * p2)) in *. set (m' := fl (Om * p3)) in *. set (r' := fl (Or * p4)) in *.
  pose proof (coefficient_pos _ Cl) as Pl. pose proof (coefficient_pos _ Ck) as Pk. pose proof (coefficient_pos _ Cm) as Pm. pose proof (coefficient_pos _ Cr) as Pr.
  set (s1 := fl (Ol + k')). set (s2 := fl (s1 + m')). set (s3 := fl (s2 + r')).
  assert (Fl : flt Ol) by apply Cl.
  assert (FF : forall x, flt (fl x)) by (intros; apply fl_float; exact Hprec).
  assert (Ns1 : near u 5 (Ol + Ok * ((1 + z) * (1 + z))) s1).
  { apply (near_add_fl 4); try assumption. apply near_weaken with 0%nat; [exact U|lia|]. now apply near_refl. }
  assert (Ns2 : near u 7 (Ol + Ok * ((1 + z) * (1 + z)) + Om * ((1 + z) * ((1 + z) * (1 + z)))) s2).
  { apply (near_add_fl 6); try assumption; [|apply FF]. apply near_weaken with 5%nat; [exact U|lia|exact Ns1]. }
  assert (Ns3 : near u 9 (h2 z) s3).
  { replace (h2 z) with (Ol + Ok * ((1 + z) * (1 + z)) + Om * ((1 + z) * ((1 + z) * (1 + z))) + Or * ((1 + z) * (1 + z) * ((1 + z) * (1 + z))))
      by (unfold hubble_squared; ring).
    apply (near_add_fl 8); try assumption; [|apply FF]. apply near_weaken with 7%nat; [exact U|lia|exact Ns2]. }
  assert (S1l : Ol <= s1) by (apply fl_ge; [exact Hprec|exact Fl|lra]).
  assert (S1k : k' <= s1) by (apply fl_ge; [exact Hprec|exact Fk|lra]).
  assert (S21 : s1 <= s2) by (apply fl_ge; [exact Hprec|apply FF|lra]).
  assert (S2m : m' <= s2) by (apply fl_ge; [exact Hprec|exact Fm|lra]).
  assert (S32 : s2 <= s3) by (apply fl_ge; [exact Hprec|apply FF|lra]).
  assert (S3r : r' <= s3) by (apply fl_ge; [exact Hprec|exact Fr|lra]).
  assert (Big : N0 <= s3).
  { destruct Cl as [_ [Zl|Zl]]; [|lra]. destruct Ck as [_ [Zk|Zk]]; [|lra]. destruct Cm as [_ [Zm|Zm]]; [|lra]. destruct Cr as [_ [Zr|Zr]]; lra. }
  assert (Bs : N0 <= sqrt s3).
  { destruct (Rle_dec 1 s3) as [L|L].
    { apply Rle_trans with 1; [exact PN1|]. rewrite <- sqrt_1. now apply sqrt_le_1_alt. }
    apply Rle_trans with s3; [exact Big|]. rewrite <- (sqrt_square s3) at 1 by lra. apply sqrt_le_1_alt.
    rewrite <- (Rmult_1_r s3) at 3. apply Rmult_le_compat_l; lra. }
  split.
  { apply (near_trans u U 9 1) with (sqrt s3); [now apply near_sqrt; [exact U|]|]. apply near_fl; [exact Hprec|now right]. }
  apply fl_ge; [exact Hprec| |exact Bs]. apply power_float; [exact Hprec|]. unfold Prec_gt_0 in Hprec. lia.
Qed.
Lemma sixteen : / 2 <= (1 - u) ^ 14.
Proof.
  pose proof (u_bounds prec) as Ub.
  assert (B : forall k, 1 - INR k * u <= (1 - u) ^ k).
  { induction k as [|k IH]; [simpl; lra|]. rewrite S_INR. cbn [pow].
    assert (0 <= INR k * (u * u)) by (apply Rmult_le_pos; [apply pos_INR|apply Rmult_le_pos; lra]).
    assert ((1 - u) * (1 - INR k * u) <= (1 - u) * (1 - u) ^ k) by (apply Rmult_le_compat_l; lra). lra. }
  specialize (B 14%nat). replace (INR 14) with 14 in B by (simpl; ring). lra.
Qed.
Lemma near_half : forall k x y, (k <= 14)%nat -> near u k x y -> x <= 2 * y.
Proof.
  intros k x y H N. apply (near_weaken u U k 14) in N; [|exact H]. destruct N as (A & B & C & D).
  pose proof sixteen. assert (x * / 2 <= x * (1 - u) ^ 14) by (apply Rmult_le_compat_l; lra). lra.
Qed.
Lemma h2_pos : forall z, 0 <= z -> 0 < h2 z.
Proof.
  intros z Hz. pose proof (coefficient_pos _ Cl) as Pl. pose proof (coefficient_pos _ Ck) as Pk. pose proof (coefficient_pos _ Cm) as Pm. pose proof (coefficient_pos _ Cr) as Pr.
  assert (P : forall n, 1 <= (1 + z) ^ n) by (intros; apply pow_R1_Rle; lra).
  assert (Q : forall c n, 0 <= c -> c <= c * (1 + z) ^ n).
  { intros c n Hc. specialize (P n). assert (c * 1 <= c * (1 + z) ^ n) by (apply Rmult_le_compat_l; lra). lra. }
  unfold hubble_squared. pose proof (Q Ok 2%nat Pk). pose proof (Q Om 3%nat Pm). pose proof (Q Or 4%nat Pr). lra.
Qed.
Lemma h2_increasing : forall x y, 0 <= x -> x <= y -> h2 x <= h2 y.
Proof.
  intros x y Hx Hy. pose proof (coefficient_pos _ Ck) as Pk. pose proof (coefficient_pos _ Cm) as Pm. pose proof (coefficient_pos _ Cr) as Pr.
  assert (P : forall n, (1 + x) ^ n <= (1 + y) ^ n) by (intros; apply pow_incr; lra).
  unfold hubble_squared. repeat apply Rplus_le_compat; try lra; apply Rmult_le_compat_l; auto.
Qed.
Lemma f_pos : forall z, 0 <= z -> 0 < f z.
Proof. intros z Hz. apply Rdiv_lt_0_compat; [exact Hratio|]. apply sqrt_lt_R0. now apply h2_pos. Qed.
Lemma f_decreasing : forall x y, 0 <= x -> x <= y -> f y <= f x.
Proof.
  intros x y Hx Hy. unfold per_redshift, Rdiv. apply Rmult_le_compat_l; [lra|]. apply Rinv_le_contravar.
  { apply sqrt_lt_R0. now apply h2_pos. } apply sqrt_le_1_alt. now apply h2_increasing.
Qed.
Lemma f_continuous : forall x, 0 <= x -> continuous f x.
Proof.
  intros x Hx. pose proof (h2_pos x Hx) as P. apply (ex_derive_continuous f). unfold per_redshift. unfold hubble_squared in *. auto_derive.
  split; [exact P|]. split; [|exact I]. apply Rgt_not_eq, sqrt_lt_R0. exact P.
Qed.
Lemma dDcdz_near : forall z, flt z -> 0 <= z -> 2 * N0 <= f z ->
  near u 11 (f z) (fl_dDcdz emin prec ratio Om Or Ol Ok z).
Proof.
  intros z Fz Hz Hf. destruct (E_near z Fz Hz) as [Ne Pe]. pose proof (N0_pos emin prec) as PN.
  set (E' := fl_E emin prec Om Or Ol Ok z) in *. unfold fl_dDcdz. fold E'.
  assert (Ps : 0 < sqrt (h2 z)) by (apply sqrt_lt_R0; now apply h2_pos).
  assert (N : near u 10 (f z) (ratio / E')).
  { unfold per_redshift, Rdiv. apply (near_mult u U 0 10); [apply near_refl; lra|]. apply near_inv; [exact U|exact Ne|exact Ps|lra]. }
  apply (near_trans u U 10 1) with (ratio / E'); [exact N|]. apply near_fl; [exact Hprec|right].
  pose proof (near_half 10 _ _ ltac:(lia) N). lra.
Qed.

Variables lo hi : R.
Hypothesis Hlo : 0 < lo.
Hypothesis Hlo1 : lo <= 1.
Lemma apart_inc : forall zs, apart lo hi zs -> inc1 zs.
Proof.
  induction zs as [|x0 [|x1 zs] IH]; intros H; try exact I. destruct H as [[A B] H]. split; [lra|]. now apply IH.
Qed.
Lemma apart_steps : forall zs, apart lo hi zs -> steps hi zs.
Proof.
  induction zs as [|x0 [|x1 zs] IH]; intros H; try exact I. destruct H as [[A B] H]. split; [lra|]. now apply IH.
Qed.
Lemma areas_near : forall zs, apart lo hi zs -> List.Forall flt zs -> 0 <= hd 0 zs -> 4 * N0 <= lo * f (last zs 0) ->
  Forall2 (near u 15) (areas f zs) (fl_areas emin prec (fl_dDcdz emin prec ratio Om Or Ol Ok) zs)
  /\ List.Forall flt (fl_areas emin prec (fl_dDcdz emin prec ratio Om Or Ol Ok) zs).
Proof.
  pose proof (N0_pos emin prec) as PN.
  induction zs as [|x0 [|x1 zs] IH]; intros HA HF H0 Hr; [split; constructor|split; constructor|].
  pose proof (apart_inc _ HA) as Inc. destruct HA as [[A1 A2] HA]. inversion HF as [|? ? F0 HF']; subst. inversion HF' as [|? ? F1 _]; subst.
  change (last (x0 :: x1 :: zs) 0) with (last (x1 :: zs) 0) in Hr. cbn [hd] in H0.
  destruct (IH HA HF' ltac:(cbn [hd]; lra) Hr) as [IH1 IH2].
  pose proof (inc1_last zs x1 (proj2 Inc)) as Ll.
  set (g := fl_dDcdz emin prec ratio Om Or Ol Ok) in *.
  change (areas f (x0 :: x1 :: zs)) with ((x1 - x0) * (f x1 + f x0) / 2 :: areas f (x1 :: zs)).
  change (fl_areas emin prec g (x0 :: x1 :: zs)) with (fl (fl (fl (x1 - x0) * fl (g x1 + g x0)) / 2) :: fl_areas emin prec g (x1 :: zs)).
  split; [|apply List.Forall_cons; [exact (fl_float emin prec _)|exact IH2]]. apply Forall2_cons; [|exact IH1].
  set (fz := f (last (x1 :: zs) 0)) in *.
  assert (M1 : fz <= f x1) by (apply f_decreasing; lra). assert (M0 : f x1 <= f x0) by (apply f_decreasing; lra).
  assert (Pz : 0 < fz) by (apply f_pos; lra).
  assert (Lz : lo * fz <= fz) by (assert (lo * fz <= 1 * fz) by (apply Rmult_le_compat_r; lra); lra).
  assert (N1 : near u 11 (f x1) (g x1)) by (apply dDcdz_near; [exact F1|lra|lra]).
  assert (N0' : near u 11 (f x0) (g x0)) by (apply dDcdz_near; [exact F0|lra|lra]).
  assert (Fg : forall z, flt (g z)) by (intros; apply fl_float; exact Hprec).
  pose proof (near_add_fl 11 _ _ _ _ N1 N0' (Fg x1) (Fg x0)) as Ny. cbn [Nat.add] in Ny.
  assert (Nd : near u 1 (x1 - x0) (fl (x1 - x0))) by (apply near_sum2; [exact Hprec|exact F1|now apply float_opp|lra]).
  set (d := fl (x1 - x0)) in *. set (y := fl (g x1 + g x0)) in *.
  assert (Np : near u 13 ((x1 - x0) * (f x1 + f x0)) (d * y)) by (apply (near_mult u U 1 12); assumption).
  assert (Lower : 8 * N0 <= (x1 - x0) * (f x1 + f x0)).
  { assert (lo * (2 * fz) <= (x1 - x0) * (f x1 + f x0)) by (apply Rmult_le_compat; lra). lra. }
  pose proof (near_half 13 _ _ ltac:(lia) Np) as Hh.
  assert (Np' : near u 14 ((x1 - x0) * (f x1 + f x0)) (fl (d * y))).
  { apply (near_trans u U 13 1) with (d * y); [exact Np|]. apply near_fl; [exact Hprec|right; lra]. }
  pose proof (near_half 14 _ _ ltac:(lia) Np') as Hh'.
  apply (near_trans u U 14 1) with (fl (d * y) / 2); [|apply near_fl; [exact Hprec|right; lra]].
  unfold Rdiv. apply (near_mult u U 14 0); [exact Np'|apply near_refl; lra].
Qed.
End Expansion.

(** ** the tables and the distances *)
Section Distances.
Variables emin prec : Z.
Context {Hprec : Prec_gt_0 prec}.
Notation u := (unit_roundoff prec).
Notation flt := (is_float emin prec).
Notation fl := (fl emin prec).
Notation N0 := (smallest_normal emin prec).
Notation tiny := (bpow radix2 emin).
Hypothesis Hone : (emin <= - prec - 1)%Z.
Variables ratio Om Or Ol Ok : R.
Hypothesis Cm : coefficient emin prec Om.
Hypothesis Cr : coefficient emin prec Or.
Hypothesis Cl : coefficient emin prec Ol.
Hypothesis Ck : coefficient emin prec Ok.
Hypothesis Hsum : 0 < Om + Or + Ol + Ok.
Hypothesis Fratio : flt ratio.
Hypothesis Hratio : 0 < ratio.
Notation f := (per_redshift ratio Om Or Ol Ok).
Notation U := (u01 prec).
Variables lo hi : R.
Variable zs : list R.
Hypothesis Hzs : redshifts emin prec lo hi zs.
Hypothesis Hlo : 2 * bpow radix2 (2 - 2 * prec) <= lo.
Hypothesis Hlo1 : lo <= 1.
Hypothesis Hroom : 4 * N0 <= lo * f (last zs 0).
Variable order : list R -> tree.
Variable h : nat.
Hypothesis Hord : adds_up order.
Hypothesis Hch : chains order (length zs) h.
Hypothesis Hsmall : INR (17 + h) * u <= / 9.

Lemma small_u : u <= / 100.
Proof.
  pose proof (u_bounds prec) as Ub. rewrite plus_INR in Hsmall. replace (INR 17) with 17 in Hsmall by (simpl; ring).
  assert (0 <= INR h * u) by (apply Rmult_le_pos; [apply pos_INR|lra]). rewrite Rmult_plus_distr_r in Hsmall. 
  assert (17 * u <= / 9) by lra. lra.
Qed.
Lemma roundings_small : forall k, (k <= 17 + h)%nat -> INR k * u < 1 /\ 0 <= roundings u k <= / 8.
Proof.
  intros k Hk. pose proof (u_bounds prec) as Ub. apply le_INR in Hk.
  assert (A : INR k * u <= INR (17 + h) * u) by (apply Rmult_le_compat_r; lra).
  assert (B : 0 <= INR k * u) by (apply Rmult_le_pos; [apply pos_INR|lra]).
  set (p := INR k * u) in *. split; [lra|]. unfold roundings, of_relative. fold p.
  split; [apply Rmult_le_pos; [lra|left; apply Rinv_0_lt_compat; lra]|].
  apply (Rmult_le_reg_r (1 - p)); [lra|]. unfold Rdiv. rewrite Rmult_assoc, Rinv_l by lra. lra.
Qed.
Lemma lo_pos : 0 < lo.
Proof. pose proof (bpow_gt_0 radix2 (2 - 2 * prec)). lra. Qed.
Notation last_z := (last zs 0).
Lemma zs_facts : (2 <= length zs)%nat /\ hd 0 zs = 0 /\ apart lo hi zs /\ List.Forall flt zs /\ 0 <= last_z /\ inc1 zs.
Proof.
  destruct Hzs as (A & B & C & D). pose proof (apart_inc lo hi lo_pos zs C) as I.
  repeat split; try assumption. destruct zs as [|x r]; [simpl; lra|]. cbn [hd] in B. subst x. apply (inc1_last r 0 I).
Qed.

Lemma prefix_bound : forall l i, inc1 l -> 0 <= hd 0 l -> 0 <= sum_of (firstn i (areas f l)) <= f (hd 0 l) * (last l 0 - hd 0 l).
Proof.
  induction l as [|x0 [|x1 r] IH]; intros i Hi H0.
  { destruct i; simpl; lra. } { destruct i; simpl; lra. }
  destruct Hi as [Hlt Hi]. cbn [hd] in *. change (last (x0 :: x1 :: r) 0) with (last (x1 :: r) 0).
  pose proof (inc1_last r x1 Hi) as L. specialize (IH (Nat.pred i) Hi ltac:(cbn [hd]; lra)). cbn [hd] in IH.
  pose proof (f_pos emin prec ratio Om Or Ol Ok Cm Cr Cl Ck Hsum Hratio x1 ltac:(lra)) as P1.
  pose proof (f_pos emin prec ratio Om Or Ol Ok Cm Cr Cl Ck Hsum Hratio x0 ltac:(lra)) as P0.
  pose proof (f_decreasing emin prec ratio Om Or Ol Ok Cm Cr Cl Ck Hsum Hratio x0 x1 ltac:(lra) ltac:(lra)) as D.
  assert (A1 : f x1 * (last (x1 :: r) 0 - x1) <= f x0 * (last (x1 :: r) 0 - x1)) by (apply Rmult_le_compat_r; lra).
  assert (A2 : 0 <= (x1 - x0) * (f x1 + f x0) <= (x1 - x0) * (2 * f x0)).
  { split; [apply Rmult_le_pos; lra|apply Rmult_le_compat_l; lra]. }
  assert (A3 : 0 <= f x0 * (last (x1 :: r) 0 - x0)) by (apply Rmult_le_pos; lra).
  change (areas f (x0 :: x1 :: r)) with ((x1 - x0) * (f x1 + f x0) / 2 :: areas f (x1 :: r)).
  destruct i as [|i]; [unfold sum_of; cbn [firstn fold_right]; lra|].
  unfold sum_of in *. cbn [firstn fold_right Nat.pred] in *. lra.
Qed.

Definition table : list R := 0 :: cumtrapz_from 0 zs (map f zs).
Notation top := (f 0 * last_z).
Lemma table_entries : List.Forall (fun t => 0 <= t <= top) table.
Proof.
  destruct zs_facts as (_ & H0 & _ & _ & Hl & I).
  pose proof (f_pos emin prec ratio Om Or Ol Ok Cm Cr Cl Ck Hsum Hratio 0 ltac:(lra)) as P0.
  unfold table. rewrite cumtrapz_sums. apply List.Forall_cons; [split; [lra|apply Rmult_le_pos; lra]|].
  apply Forall_forall. intros t Ht. apply in_map_iff in Ht. destruct Ht as (i & <- & _).
  pose proof (prefix_bound zs i I ltac:(lra)) as B. rewrite H0 in B. replace (last_z - 0) with last_z in B by ring. lra.
Qed.
Lemma table_near : Forall2 (fun t g => flt g /\ near u (15 + h) t g) table (fl_Dc emin prec ratio Om Or Ol Ok order zs).
Proof.
  destruct zs_facts as (HL & H0 & HA & HF & Hl & I).
  destruct (areas_near emin prec small_u Hone ratio Om Or Ol Ok Cm Cr Cl Ck Hsum Hratio lo hi lo_pos Hlo1 zs HA HF ltac:(lra) Hroom) as [N F].
  unfold table, fl_Dc. apply Forall2_cons.
  { split; [apply float_0|]. apply near_weaken with 0%nat; [exact U|lia|]. apply near_refl. lra. }
  rewrite cumtrapz_sums. apply cumsum_near with (length zs); try assumption.
  assert (E : length (areas f zs) = length (fl_areas emin prec (fl_dDcdz emin prec ratio Om Or Ol Ok) zs)) by (clear -N; induction N; cbn [length]; lia).
  rewrite <- E, areas_length. lia.
Qed.
Lemma table_length : length zs = length table.
Proof.
  destruct zs_facts as (HL & _). unfold table. cbn [length]. rewrite cumtrapz_sums, map_length, seq_length, areas_length. lia.
Qed.
Lemma table_rows : Forall2 (entry emin prec (roundings u (15 + h)) top) table (fl_Dc emin prec ratio Om Or Ol Ok order zs).
Proof.
  destruct (roundings_small (15 + h) ltac:(lia)) as [R1 _].
  pose proof table_near as N. pose proof table_entries as T.
  induction N as [|t g ts gs [H1 H2] N IH]; constructor.
  { inversion T; subst. split; [exact H1|]. split; [assumption|]. apply near_relative; [exact U|exact R1|exact H2]. }
  apply IH. now inversion T.
Qed.
Lemma zs_shape : exists x1 r, zs = 0 :: x1 :: r.
Proof.
  destruct zs_facts as (HL & H0 & _). destruct zs as [|x0 [|x1 r]]; cbn [length] in HL; try lia. cbn [hd] in H0. subst. eauto.
Qed.
Lemma comoving_rounded : forall z, flt z -> 0 <= z <= last_z ->
  Rabs (fl_z_to_Dc emin prec ratio Om Or Ol Ok order zs z - comoving ratio Om Or Ol Ok z)
  <= hi / 2 * f 0 + interp_error u tiny (roundings u (15 + h)) top.
Proof.
  intros z Fz Hz. destruct zs_facts as (HL & H0 & HA & HF & Hl & I).
  destruct (roundings_small (15 + h) ltac:(lia)) as [_ R2].
  pose proof (Proofs_RoundedDistance.table_error emin prec small_u Hone (roundings u (15 + h)) top lo hi R2 Hlo zs table _ z HL table_length table_rows HA HF Fz ltac:(rewrite H0; exact Hz)) as E.
  pose proof (apart_steps lo hi zs HA) as St.
  destruct zs_shape as (x1 & r & Ez).
  assert (Q : Rabs (interp_cell z (combine zs table) - comoving ratio Om Or Ol Ok z) <= hi / 2 * (f 0 - f last_z)).
  { unfold table, comoving. rewrite Ez in *.
    pose proof (trapezoid_table f (f_continuous emin prec ratio Om Or Ol Ok Cm Cr Cl Ck Hsum) (f_decreasing emin prec ratio Om Or Ol Ok Cm Cr Cl Ck Hsum Hratio)
      hi r 0 x1 0 z ltac:(lra) I St Hz) as T. cbv zeta in T. rewrite Rplus_0_l in T. exact T. }
  assert (Hh : 0 <= hi).
  { rewrite Ez in HA. destruct HA as [[A B] _]. pose proof lo_pos. lra. }
  pose proof (f_pos emin prec ratio Om Or Ol Ok Cm Cr Cl Ck Hsum Hratio last_z Hl) as Pl.
  assert (hi / 2 * (f 0 - f last_z) <= hi / 2 * f 0) by (apply Rmult_le_compat_l; lra).
  unfold fl_z_to_Dc. set (A := fl_interp _ _ _ _ _) in *. set (B := interp_cell _ _) in *.
  replace (A - comoving ratio Om Or Ol Ok z) with ((A - B) + (B - comoving ratio Om Or Ol Ok z)) by ring.
  eapply Rle_trans; [apply Rabs_triang|]. lra.
Qed.
Lemma table_gap : List.Forall (fun t => t = 0 \/ 4 * N0 <= t) table.
Proof.
  destruct zs_facts as (_ & H0 & HA & _ & Hl & I). destruct zs_shape as (x1 & r & Ez).
  unfold table. rewrite cumtrapz_sums. apply List.Forall_cons; [now left|].
  apply Forall_forall. intros t Ht. apply in_map_iff in Ht. destruct Ht as (i & <- & Hi). apply in_seq in Hi. right.
  destruct i as [|i]; [lia|]. rewrite Ez in *. destruct HA as [[A1 A2] HA]. destruct I as [I1 I2]. cbn [hd] in H0.
  change (last (0 :: x1 :: r) 0) with (last (x1 :: r) 0) in *.
  pose proof (inc1_last r x1 I2) as L.
  pose proof (prefix_bound (x1 :: r) i I2 ltac:(cbn [hd]; lra)) as B.
  change (areas f (0 :: x1 :: r)) with ((x1 - 0) * (f x1 + f 0) / 2 :: areas f (x1 :: r)).
  unfold sum_of in *. cbn [firstn fold_right].
  pose proof (f_pos emin prec ratio Om Or Ol Ok Cm Cr Cl Ck Hsum Hratio (last (x1 :: r) 0) ltac:(lra)) as Pl.
  pose proof (f_decreasing emin prec ratio Om Or Ol Ok Cm Cr Cl Ck Hsum Hratio x1 (last (x1 :: r) 0) ltac:(lra) ltac:(lra)) as D1.
  pose proof (f_decreasing emin prec ratio Om Or Ol Ok Cm Cr Cl Ck Hsum Hratio 0 x1 ltac:(lra) ltac:(lra)) as D0.
  assert (lo * (2 * f (last (x1 :: r) 0)) <= (x1 - 0) * (f x1 + f 0)) by (pose proof lo_pos; apply Rmult_le_compat; lra).
  lra.
Qed.
Notation shifted := (map2 (fun d z => d * (1 + z)) table zs).
Notation top_L := (top * (1 + last_z)).
Lemma inc1_bounds : forall l, inc1 l -> forall x, In x l -> hd 0 l <= x <= last l 0.
Proof.
  induction l as [|a [|b l] IH]; intros Hi x Hx; [easy| |].
  { destruct Hx as [->|[]]. simpl. lra. }
  destruct Hi as [Hab Hi]. change (last (a :: b :: l) 0) with (last (b :: l) 0). cbn [hd].
  destruct Hx as [<-|Hx]; [pose proof (inc1_last l b Hi); lra|]. pose proof (IH Hi x Hx) as B. cbn [hd] in B. lra.
Qed.
Lemma shifted_near : Forall2 (fun t g => flt g /\ (0 <= t <= top_L) /\ near u (17 + h) t g) shifted (fl_DL emin prec ratio Om Or Ol Ok order zs).
Proof.
  destruct zs_facts as (HL & H0 & HA & HF & Hl & I).
  assert (Z : List.Forall (fun z => flt z /\ 0 <= z <= last_z) zs).
  { apply Forall_forall. intros z Hz. split; [now apply (proj1 (Forall_forall _ _) HF)|]. pose proof (inc1_bounds zs I z Hz). lra. }
  destruct (roundings_small (15 + h) ltac:(lia)) as [R1 R2].
  pose proof (N0_pos emin prec) as PN.
  unfold fl_DL. pose proof table_near as N. pose proof table_entries as T. pose proof table_gap as G.
  revert N T G. generalize table (fl_Dc emin prec ratio Om Or Ol Ok order zs). generalize last_z top Z. clear - Hprec Hone Hsmall R1 R2 PN.
  intros l M Z. induction Z as [|z zs' [Fz Hz] Z IH]; intros ts gs N T G.
  { destruct N; cbn; constructor. }
  destruct N as [|t g ts gs [Fg Ng] N]; [cbn; constructor|].
  apply Forall_inv in T as T1. apply Forall_inv_tail in T. apply Forall_inv in G as G1. apply Forall_inv_tail in G.
  cbn [map2 fl_DL_rows]. constructor; [|now apply IH]. split; [apply fl_float; exact Hprec|]. split.
  { split; [apply Rmult_le_pos; lra|apply Rmult_le_compat; lra]. }
  assert (One : near u 1 (1 + z) (fl (1 + z))).
  { apply near_sum2; try assumption; try lra. now apply flt_1. }
  assert (Ge : 1 <= fl (1 + z)) by (apply fl_ge; [exact Hprec|now apply flt_1|lra]).
  replace (17 + h)%nat with (15 + h + 1 + 1)%nat by lia. apply near_mul_fl; try assumption.
  pose proof (near_relative u U _ _ _ R1 Ng) as Rel. apply Rabs_le_between in Rel.
  destruct G1 as [->|G1]; [left|right].
  { assert (g = 0) by lra. subst g. ring. }
  assert (roundings u (15 + h) * t <= / 8 * t) by (apply Rmult_le_compat_r; lra).
  assert (g * 1 <= g * fl (1 + z)) by (apply Rmult_le_compat_l; lra). lra.
Qed.
Lemma shifted_rows : Forall2 (entry emin prec (roundings u (17 + h)) top_L) shifted (fl_DL emin prec ratio Om Or Ol Ok order zs).
Proof.
  destruct (roundings_small (17 + h) ltac:(lia)) as [R1 _].
  pose proof shifted_near as N. induction N as [|t g ts gs (H1 & H2 & H3) N IH]; constructor; [|exact IH].
  split; [exact H1|]. split; [exact H2|]. apply near_relative; [exact U|exact R1|exact H3].
Qed.
Lemma shifted_length : length zs = length shifted.
Proof.
  pose proof table_length as L. revert L. generalize table. clear. induction zs as [|z zs' IH]; intros [|t ts] L; cbn in *; try lia.
  rewrite <- (IH ts); lia.
Qed.
Lemma luminosity_rounded : forall z, flt z -> 0 <= z <= last_z ->
  Rabs (fl_z_to_DL emin prec ratio Om Or Ol Ok order zs z - luminosity ratio Om Or Ol Ok z)
  <= (1 + z) * (hi / 2 * f 0) + hi ^ 2 / 4 * f 0 + interp_error u tiny (roundings u (17 + h)) top_L.
Proof.
  intros z Fz Hz. destruct zs_facts as (HL & H0 & HA & HF & Hl & I).
  destruct (roundings_small (17 + h) ltac:(lia)) as [_ R2].
  pose proof (Proofs_RoundedDistance.table_error emin prec small_u Hone (roundings u (17 + h)) top_L lo hi R2 Hlo zs shifted _ z HL shifted_length shifted_rows HA HF Fz ltac:(rewrite H0; exact Hz)) as E.
  pose proof (apart_steps lo hi zs HA) as St.
  destruct zs_shape as (x1 & r & Ez).
  pose proof (f_continuous emin prec ratio Om Or Ol Ok Cm Cr Cl Ck Hsum) as FC.
  pose proof (f_decreasing emin prec ratio Om Or Ol Ok Cm Cr Cl Ck Hsum Hratio) as FD.
  pose proof (f_pos emin prec ratio Om Or Ol Ok Cm Cr Cl Ck Hsum Hratio) as FP.
  assert (Q : Rabs (interp_cell z (combine zs table) - comoving ratio Om Or Ol Ok z) <= hi / 2 * (f 0 - f last_z)).
  { unfold table, comoving. rewrite Ez in *.
    pose proof (trapezoid_table f FC FD hi r 0 x1 0 z ltac:(lra) I St Hz) as T. cbv zeta in T. rewrite Rplus_0_l in T. exact T. }
  assert (P : 0 <= interp_cell z (combine zs shifted) - (1 + z) * interp_cell z (combine zs table) <= f 0 * (hi ^ 2 / 4)).
  { unfold table. rewrite Ez in *.
    exact (product_table f FD (fun y Hy => Rlt_le _ _ (FP y Hy)) hi r 0 x1 0 z ltac:(lra) I St Hz). }
  assert (Hh : 0 <= hi).
  { rewrite Ez in HA. destruct HA as [[A B] _]. pose proof lo_pos. lra. }
  pose proof (FP last_z Hl) as Pl.
  assert (Q2 : hi / 2 * (f 0 - f last_z) <= hi / 2 * f 0) by (apply Rmult_le_compat_l; lra).
  unfold fl_z_to_DL, luminosity. set (A := fl_interp _ _ _ _ _) in *. set (B := interp_cell z (combine zs shifted)) in *.
  set (T := interp_cell z (combine zs table)) in *. set (C := comoving ratio Om Or Ol Ok z) in *.
  replace (A - (1 + z) * C) with ((A - B) + ((B - (1 + z) * T) + (1 + z) * (T - C))) by ring.
  assert (Q3 : Rabs ((1 + z) * (T - C)) <= (1 + z) * (hi / 2 * f 0)).
  { rewrite Rabs_mult, (Rabs_pos_eq (1 + z)) by lra. apply Rmult_le_compat_l; lra. }
  assert (Q4 : Rabs (B - (1 + z) * T) <= hi ^ 2 / 4 * f 0) by (rewrite Rabs_pos_eq; lra).
  eapply Rle_trans; [apply Rabs_triang|]. pose proof (Rabs_triang (B - (1 + z) * T) ((1 + z) * (T - C))). lra.
Qed.
End Distances.
