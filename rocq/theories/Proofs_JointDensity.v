(** The four terms of the joint spin prior add up to the density. *)
From Coq Require Import Reals Lra Lia List Bool.
From Coquelicot Require Import Coquelicot.
From Verif Require Import Model_X Model_Transform Model_Population Spec_ChiEff Proofs_ChiEff Model_JointSpin Spec_JointSpin
  Proofs_Clog Proofs_JointSpin.
Import ListNotations.
Open Scope R_scope.

(** ** integrals *)
Lemma ni_ext_except (E0 : list R) f h a b v : (forall x, a < x < b -> ~ In x E0 -> f x = h x) ->
  newton_integral f a b v -> newton_integral h a b v.
Proof.
  intros He (P & E & Hc & Hd & Hv). exists P, (E0 ++ E). split; [exact Hc|split; [|exact Hv]].
  intros x Hx Hn. rewrite in_app_iff in Hn. rewrite <- He by tauto. apply Hd; tauto.
Qed.
Lemma ni_plus f h a b v w : newton_integral f a b v -> newton_integral h a b w ->
  newton_integral (fun x => f x + h x) a b (v + w).
Proof.
  intros (P & E & Hc & Hd & ->) (Q & E' & Hc' & Hd' & ->). exists (fun x => P x + Q x), (E ++ E'). split; [|split].
  - intros x Hx. apply (continuous_plus (V := R_NormedModule)); auto.
  - intros x Hx Hn. rewrite in_app_iff in Hn. apply d_plus; [apply Hd|apply Hd']; tauto.
  - ring.
Qed.
Lemma ni_scal k f a b v : newton_integral f a b v -> newton_integral (fun x => k * f x) a b (k * v).
Proof.
  intros (P & E & Hc & Hd & ->). exists (fun x => k * P x), E. split; [|split].
  - intros x Hx. apply (continuous_mult (fun _ => k)); [apply continuous_const|auto].
  - intros x Hx Hn. evar_last. { exact (d_mult _ _ x _ _ (d_const k x) (Hd x Hx Hn)). } cbv beta. ring.
  - ring.
Qed.
Lemma ni_zero a b : newton_integral (fun _ => 0) a b 0.
Proof.
  exists (fun _ => 0), nil. split; [intros; apply continuous_const|split; [intros; apply d_const|ring]].
Qed.
Lemma ni_subst k f a b v : 0 < k -> newton_integral f (k * a) (k * b) v ->
  newton_integral (fun z => f (k * z)) a b (v / k).
Proof.
  intros K (P & E & Hc & Hd & ->). exists (fun z => P (k * z) / k), (map (fun x => / k * x) E). split; [|split].
  - intros x Hx. apply (continuous_ext (fun z => / k * P (k * z))). { intros z. unfold Rdiv. apply Rmult_comm. }
    apply (continuous_mult (fun _ => / k)); [apply continuous_const|].
    apply (continuous_comp (fun z => k * z) P); [|apply Hc; split; apply Rmult_le_compat_l; lra].
    apply (ex_derive_continuous (V := R_NormedModule)). auto_derive. auto.
  - intros x Hx Hn.
    assert (Q : is_derive (fun z => k * z) x k) by (auto_derive; [auto|ring]).
    assert (In1 : k * a < k * x < k * b) by (split; apply Rmult_lt_compat_l; lra).
    assert (Hn' : ~ In (k * x) E).
    { intros I. apply Hn. replace x with (/ k * (k * x)) by (field; lra). exact (in_map (fun x => / k * x) E _ I). }
    evar_last. { exact (d_mult _ _ x _ _ (is_derive_comp P (fun z => k * z) x _ _ (Hd _ In1 Hn') Q) (d_const (/ k) x)). }
    change (@scal R_AbsRing R_NormedModule) with Rmult. cbv beta. field. lra.
  - unfold Rdiv. ring.
Qed.

(** f on the open interval from lo to hi, 0 elsewhere *)
Definition window (lo hi : R) (f : R -> R) (x : R) : R :=
  if Rlt_dec lo x then if Rlt_dec x hi then f x else 0 else 0.
Definition clip (lo hi x : R) : R := Rmax lo (Rmin hi x).
Lemma clip_cont lo hi x : continuous (clip lo hi) x.
Proof.
  apply continuity_pt_filterlim. intros eps He. exists eps. split; [exact He|]. intros y [_ D].
  unfold dist in *; cbn in *. unfold R_dist in *. unfold clip, Rmax, Rmin in *.
  apply Rabs_def2 in D. apply Rabs_def1; repeat destruct Rle_dec; lra.
Qed.
Lemma ni_window (Phi h : R -> R) (E : list R) lo hi A B :
  (forall x, continuous Phi x) -> (forall x, ~ In x E -> is_derive Phi x (h x)) ->
  lo <= hi -> A <= lo -> hi <= B ->
  newton_integral (window lo hi h) A B (Phi hi - Phi lo).
Proof.
  intros Cn D L LA LB. exists (fun x => Phi (clip lo hi x)), (lo :: hi :: E). split; [|split].
  - intros x _. apply (continuous_comp (clip lo hi) Phi); [apply clip_cont|apply Cn].
  - intros x Hx Hn. cbn [In] in Hn. unfold window.
    destruct (Rlt_dec lo x) as [H1|H1]; [destruct (Rlt_dec x hi) as [H2|H2]|].
    + apply (is_derive_ext_loc Phi).
      * assert (P1 : is_derive (fun s : R => s - lo) x 1) by (auto_derive; auto; ring).
        assert (P2 : is_derive (fun s : R => hi - s) x (-1)) by (auto_derive; auto; ring).
        assert (Q1 : 0 < x - lo) by lra. assert (Q2 : 0 < hi - x) by lra.
        apply (is_derive_locally_pos _ _ _ P1) in Q1. apply (is_derive_locally_pos _ _ _ P2) in Q2.
        generalize (filter_and _ _ Q1 Q2). apply filter_imp. intros s [S1 S2]. f_equal. unfold clip. rewrite Rmin_right, Rmax_right; lra.
      * apply D. tauto.
    + apply (is_derive_ext_loc (fun _ => Phi hi)); [|apply d_const].
      assert (P1 : is_derive (fun s : R => s - hi) x 1) by (auto_derive; auto; ring).
      assert (Hl : hi < x) by (destruct (Req_dec hi x); [tauto|lra]).
      generalize (is_derive_locally_pos _ _ _ P1 ltac:(lra)). apply filter_imp. intros s S. f_equal. unfold clip.
      rewrite Rmin_left, Rmax_right; lra.
    + apply (is_derive_ext_loc (fun _ => Phi lo)); [|apply d_const].
      assert (P1 : is_derive (fun s : R => lo - s) x (-1)) by (auto_derive; auto; ring).
      assert (Hl : x < lo) by (destruct (Req_dec lo x); [tauto|lra]).
      generalize (is_derive_locally_pos _ _ _ P1 ltac:(lra)). apply filter_imp. intros s S. f_equal. unfold clip.
      rewrite Rmax_left; [reflexivity|]. apply Rle_trans with s; [apply Rmin_r|lra].
  - assert (E1 : clip lo hi B = hi) by (unfold clip; rewrite Rmin_left, Rmax_right; lra).
    assert (E2 : clip lo hi A = lo).
    { unfold clip. apply Rmax_left. apply Rle_trans with A; [apply Rmin_r|lra]. }
    now rewrite E1, E2.
Qed.
Lemma window_empty lo hi f x : hi <= lo -> window lo hi f x = 0.
Proof. intros L. unfold window. destruct (Rlt_dec lo x); [destruct (Rlt_dec x hi); [lra|]|]; reflexivity. Qed.

(** ** the density of one spin *)
Lemma sd_in A z r : z ^ 2 + r ^ 2 < A ^ 2 -> spin_density A z r = / (2 * A) * (r / (z ^ 2 + r ^ 2)).
Proof. intros L. unfold spin_density. destruct Rlt_dec; [reflexivity|contradiction]. Qed.
Lemma sd_out A z r : A ^ 2 <= z ^ 2 + r ^ 2 -> spin_density A z r = 0.
Proof. intros L. unfold spin_density. destruct Rlt_dec; [lra|reflexivity]. Qed.
Lemma below_in A z s : 0 < A -> z <> 0 -> 0 <= s -> z ^ 2 + s ^ 2 <= A ^ 2 ->
  is_RInt (spin_density A z) 0 s (/ (4 * A) * (ln (z ^ 2 + s ^ 2) - ln (z ^ 2))).
Proof.
  intros HA NZ S L. assert (Z : 0 < z ^ 2) by nra.
  apply (is_RInt_ext (fun r => / (2 * A) * (r / (z ^ 2 + r ^ 2)))).
  { intros r Hr. rewrite Rmin_left, Rmax_right in Hr by lra. symmetry. apply sd_in. nra. }
  assert (Q : forall r, is_derive (fun r => / (4 * A) * ln (z ^ 2 + r ^ 2)) r (/ (2 * A) * (r / (z ^ 2 + r ^ 2)))).
  { intros r. assert (0 < z ^ 2 + r ^ 2) by nra.
    assert (P : is_derive (fun r => z ^ 2 + r ^ 2) r (2 * r)) by (auto_derive; [auto|ring]).
    evar_last. { exact (d_mult _ _ r _ _ (d_const (/ (4 * A)) r) (d_ln _ r _ P H)). } cbv beta. field. lra. }
  evar_last.
  { apply (is_RInt_derive (V := R_CompleteNormedModule) (fun r => / (4 * A) * ln (z ^ 2 + r ^ 2))).
    - intros r _. apply Q.
    - intros r _. assert (0 < z ^ 2 + r ^ 2) by nra. apply (ex_derive_continuous (V := R_NormedModule)). auto_derive. cbn in H. lra. }
  unfold minus, plus, opp; cbn. replace (z * (z * 1) + 0 * (0 * 1)) with (z * (z * 1)) by ring. ring.
Qed.
Lemma below_value A z r : 0 < A -> z <> 0 -> z ^ 2 < A ^ 2 -> 0 < r ->
  spin_density_below A z r = / (4 * A) * (ln (Rmin (A ^ 2) (z ^ 2 + r ^ 2)) - ln (z ^ 2)).
Proof.
  intros HA NZ L HR. apply is_RInt_unique. destruct (Rle_dec (z ^ 2 + r ^ 2) (A ^ 2)) as [I|I].
  - rewrite Rmin_right by exact I. apply below_in; lra.
  - rewrite Rmin_left by lra. set (s := sqrt (A ^ 2 - z ^ 2)).
    assert (S2 : s ^ 2 = A ^ 2 - z ^ 2) by (apply pow2_sqrt; lra). assert (S0 : 0 <= s) by apply sqrt_pos.
    assert (SR : s < r) by (apply (Rsqr_incrst_0 s r); unfold Rsqr; nra).
    replace (/ (4 * A) * (ln (A ^ 2) - ln (z ^ 2))) with (plus (/ (4 * A) * (ln (z ^ 2 + s ^ 2) - ln (z ^ 2))) 0).
    2:{ change (@plus R_NormedModule) with Rplus. rewrite Rplus_0_r. do 3 f_equal. lra. }
    apply (is_RInt_Chasles (V := R_NormedModule)) with s; [apply below_in; lra|].
    apply (is_RInt_ext (fun _ => 0)).
    { intros x Hx. rewrite Rmin_left, Rmax_right in Hx by lra. symmetry. apply sd_out. nra. }
    evar_last. { apply (is_RInt_const (V := R_NormedModule)). }
    apply Rmult_0_r.
Qed.
Lemma below_out A z r : 0 < A -> A ^ 2 <= z ^ 2 -> spin_density_below A z r = 0.
Proof.
  intros HA L. apply is_RInt_unique. apply (is_RInt_ext (fun _ => 0)).
  { intros x _. symmetry. apply sd_out. nra. }
  evar_last. { apply (is_RInt_const (V := R_NormedModule)). } apply Rmult_0_r.
Qed.

(** ** scaling by the greatest spin *)
Lemma sd_scale A z r : 0 < A -> spin_density A z r = / A ^ 2 * spin_density 1 (z / A) (r / A).
Proof.
  intros HA. assert (E : (z / A) ^ 2 + (r / A) ^ 2 = (z ^ 2 + r ^ 2) / A ^ 2) by (field; lra).
  assert (A2 : 0 < A ^ 2) by nra.
  destruct (Rlt_dec (z ^ 2 + r ^ 2) (A ^ 2)) as [L|L].
  - rewrite (sd_in A) by exact L. rewrite sd_in.
    + rewrite E. destruct (Req_dec (z ^ 2 + r ^ 2) 0) as [Z|Z].
      * assert (r = 0) by nra. subst r. unfold Rdiv. ring.
      * field. split; lra.
    + rewrite E. apply (Rmult_lt_reg_r (A ^ 2)); [exact A2|]. field_simplify; lra.
  - rewrite (sd_out A) by lra. rewrite sd_out; [ring|].
    rewrite E. apply (Rmult_le_reg_r (A ^ 2)); [exact A2|]. field_simplify; lra.
Qed.
Lemma Rmin_scale k x y : 0 <= k -> Rmin (k * x) (k * y) = k * Rmin x y.
Proof. intros K. unfold Rmin. destruct (Rle_dec (k * x) (k * y)), (Rle_dec x y); try reflexivity; nra. Qed.
Lemma below_scale A z r : 0 < A -> z <> 0 -> 0 < r ->
  spin_density_below A z r = / A * spin_density_below 1 (z / A) (r / A).
Proof.
  intros HA NZ HR. assert (A2 : 0 < A ^ 2) by nra. assert (Z2 : 0 < z ^ 2) by nra.
  assert (ZA : (z / A) ^ 2 = z ^ 2 / A ^ 2) by (field; lra).
  assert (RA : (r / A) ^ 2 = r ^ 2 / A ^ 2) by (field; lra).
  assert (NZ' : z / A <> 0) by (unfold Rdiv; apply Rmult_integral_contrapositive_currified; [exact NZ|apply Rinv_neq_0_compat; lra]).
  destruct (Rlt_dec (z ^ 2) (A ^ 2)) as [L|L].
  - rewrite (below_value A) by assumption. rewrite below_value; [|lra|exact NZ'| |apply Rdiv_lt_0_compat; assumption].
    2:{ rewrite ZA. apply (Rmult_lt_reg_r (A ^ 2)); [exact A2|]. field_simplify; lra. }
    rewrite ZA, RA. replace (Rmin (1 ^ 2) (z ^ 2 / A ^ 2 + r ^ 2 / A ^ 2)) with (Rmin (A ^ 2) (z ^ 2 + r ^ 2) / A ^ 2).
    2:{ unfold Rdiv at 1. rewrite (Rmult_comm _ (/ A ^ 2)), <- Rmin_scale by (left; now apply Rinv_0_lt_compat). f_equal; field; lra. }
    rewrite !ln_quot; try assumption; [field; lra|]. apply Rmin_glb_lt; nra.
  - rewrite (below_out A) by lra. rewrite below_out; [ring|lra|].
    rewrite ZA. apply (Rmult_le_reg_r (A ^ 2)); [exact A2|]. field_simplify; lra.
Qed.
Lemma density_scale A q chi p w : 0 < A -> 0 < q -> 0 < p ->
  chi_eff_chi_p_density 1 q (chi / A) (p / A) w -> chi_eff_chi_p_density A q chi p (w / A ^ 2).
Proof.
  intros HA Q HP (v1 & v2 & -> & N1 & N2). cbv zeta in *. exists (v1 / A ^ 2), (v2 / A ^ 2).
  set (r2 := p * (4 + 3 * q) / (q * (3 + 4 * q))) in *.
  assert (R2 : 0 < r2) by (apply Rdiv_lt_0_compat; apply Rmult_lt_0_compat; lra).
  replace (p / A * (4 + 3 * q) / (q * (3 + 4 * q))) with (r2 / A) in N1, N2 by (unfold r2; field; repeat split; lra).
  split; [unfold Rdiv; ring|].
  assert (KA : 0 < / A) by now apply Rinv_0_lt_compat.
  assert (NB : forall f v, newton_integral f (- (1)) 1 v -> newton_integral f (/ A * - A) (/ A * A) v).
  { intros f v N. replace (/ A * - A) with (- (1)) by (field; lra). now replace (/ A * A) with 1 by (field; lra). }
  apply NB in N1. apply NB in N2.
  split.
  - replace (v1 / A ^ 2) with (/ A ^ 3 * (v1 / / A)) by (field; lra).
    refine (ni_ext_except [0] _ _ _ _ _ _ (ni_scal (/ A ^ 3) _ _ _ _ (ni_subst (/ A) _ _ _ _ KA N1))).
    intros z Hz NE. assert (z <> 0) by (intros ->; apply NE; now left). cbv beta.
    rewrite (below_scale A), (sd_scale A) by assumption.
    replace (/ A * z) with (z / A) by (unfold Rdiv; ring).
    replace (((1 + q) * chi - q * z) / A) with ((1 + q) * (chi / A) - q * (z / A)) by (field; lra). field. lra.
  - replace (v2 / A ^ 2) with (/ A ^ 3 * (v2 / / A)) by (field; lra).
    refine (ni_ext_except [0] _ _ _ _ _ _ (ni_scal (/ A ^ 3) _ _ _ _ (ni_subst (/ A) _ _ _ _ KA N2))).
    intros z Hz NE. assert (z <> 0) by (intros ->; apply NE; now left). cbv beta.
    rewrite (below_scale A), (sd_scale A) by assumption.
    replace (/ A * z) with (z / A) by (unfold Rdiv; ring).
    replace (((1 + q) * chi - z) / q / A) with (((1 + q) * (chi / A) - z / A) / q) by (field; lra).
    replace (r2 / A / (p / A)) with (r2 / p) by (field; lra). field. repeat split; lra.
Qed.

(** ** the four terms *)
Lemma xmin_fin x y : xmin (Fin x) (Fin y) = Fin (Rmin x y).
Proof.
  unfold xmin, xopp, xmax, xleb, Rmin. destruct (Rle_dec (- x) (- y)), (Rle_dec x y); f_equal; lra.
Qed.
Lemma xmax_fin x y : xmax (Fin x) (Fin y) = Fin (Rmax x y).
Proof. unfold xmax, xleb, Rmax. destruct (Rle_dec x y); reflexivity. Qed.
Lemma xsqrt_nonneg x : 0 <= x -> xsqrt (Fin x) = Fin (sqrt x).
Proof. intros N. unfold xsqrt. destruct Rlt_dec; [lra|reflexivity]. Qed.
Lemma xsqrt_neg x : x < 0 -> xsqrt (Fin x) = NaN.
Proof. intros N. unfold xsqrt. destruct Rlt_dec; [reflexivity|lra]. Qed.

Section Terms.
Variable Li2 : C -> C.
Hypothesis HLi : complex_dilogarithm Li2.

Definition slope (a b c d x : R) : R := b / ((x - a) ^ 2 + b ^ 2) * ln ((x ^ 2 + c ^ 2) / d ^ 2).
(** a term: 0, or the integral over its window *)
Lemma masked_term (strict : bool) k a b c d lo hi A B : 0 < b -> 0 < d -> A <= B ->
  (lo <= hi -> A <= lo /\ hi <= B) ->
  exists v, masked true strict (Fin hi) (Fin lo) (fun hi lo => k * (F Li2 hi a b c d - F Li2 lo a b c d)) = Fin v
    /\ newton_integral (window lo hi (fun x => k * slope a b c d x)) A B v.
Proof.
  intros HB HD AB L.
  assert (N : lo <= hi -> newton_integral (window lo hi (fun x => k * slope a b c d x)) A B (k * (F Li2 hi a b c d - F Li2 lo a b c d))).
  { intros O. destruct (L O) as [L1 L2].
    refine (ni_ext_except [] _ _ _ _ _ _ (ni_scal k _ _ _ _ (ni_window (fun x => F Li2 x a b c d) (slope a b c d) [0] lo hi A B _ _ O L1 L2))).
    - intros x _ _. unfold window. destruct (Rlt_dec lo x); [destruct (Rlt_dec x hi)|]; ring.
    - intros x. now apply F_cont.
    - intros x NE. apply F_derive; try assumption. intros ->. apply NE. now left. }
  assert (Z : hi <= lo -> newton_integral (window lo hi (fun x => k * slope a b c d x)) A B 0).
  { intros O. apply (ni_ext_except [] (fun _ => 0)); [|apply ni_zero]. intros x _ _. now rewrite window_empty. }
  unfold masked. cbn [andb]. destruct strict.
  - unfold xltb. destruct (Rlt_dec lo hi) as [O|O]; eexists; (split; [reflexivity|]); [apply N|apply Z]; lra.
  - unfold xleb. destruct (Rle_dec lo hi) as [O|O]; eexists; (split; [reflexivity|]); [apply N|apply Z]; lra.
Qed.
Lemma masked_false (strict : bool) hi lo f : masked false strict hi lo f = Fin 0.
Proof. unfold masked. destruct hi, lo; reflexivity. Qed.
Lemma masked_ext cond strict hi lo f f' : (forall x y, f x y = f' x y) -> masked cond strict hi lo f = masked cond strict hi lo f'.
Proof. intros E. unfold masked. destruct hi, lo; try reflexivity. now rewrite E. Qed.

Variables chi p q : R.
Hypothesis Q : 0 < q <= 1.
Hypothesis HP : 0 < p < 1.
Let a := (1 + q) * chi.
Let c := ratio q * p.
Let s1 := sqrt (1 - p ^ 2).
Let r2 := p * (4 + 3 * q) / (q * (3 + 4 * q)).

Lemma ratio_pos : 0 < ratio q.
Proof. unfold ratio. apply Rdiv_lt_0_compat; lra. Qed.
Lemma c_pos : 0 < c.
Proof. pose proof ratio_pos. unfold c. nra. Qed.
Lemma r2_c : r2 = c / q.
Proof. unfold r2, c, ratio. field. lra. Qed.
Lemma s1_sq : s1 ^ 2 = 1 - p ^ 2.
Proof. unfold s1. apply pow2_sqrt. nra. Qed.
Lemma s1_pos : 0 <= s1. Proof. apply sqrt_pos. Qed.
Lemma root_1_fin : root_1 p = Fin s1.
Proof. unfold root_1. rewrite xsqrt_nonneg; [reflexivity|nra]. Qed.
Lemma gtb_p : gtb p 0 = true.
Proof. unfold gtb. destruct Rlt_dec; [reflexivity|lra]. Qed.
Lemma gtb_1 : gtb 1 p = true.
Proof. unfold gtb. destruct Rlt_dec; [reflexivity|lra]. Qed.
Lemma geb_c : geb q ((4 + 3 * q) * p / (3 + 4 * q)) = if Rle_dec c q then true else false.
Proof.
  unfold geb. replace ((4 + 3 * q) * p / (3 + 4 * q)) with c by (unfold c, ratio; field; lra). reflexivity.
Qed.
(** x is strictly within s of a *)
Lemma within (s x y : R) : 0 <= s -> (x - y) ^ 2 < s ^ 2 <-> x - s < y < x + s.
Proof.
  intros S. split.
  - intros L. assert (Rabs (x - y) < s). { rewrite <- (Rabs_right s) by lra. apply Rsqr_lt_abs_0. unfold Rsqr. lra. }
    apply Rabs_def2 in H. lra.
  - intros [L1 L2]. assert (0 < (s - (x - y)) * (s + (x - y))) by (apply Rmult_lt_0_compat; lra). lra.
Qed.

(** I2 is minus the part with the logarithm of x^2 / q^2 *)
Lemma term2 : exists v, I2 Li2 chi p q = Fin v
  /\ newton_integral (window (Rmax (- q) (a - s1)) (Rmin q (a + s1)) (fun x => - (1 + q) / (8 * q) * slope a p 0 q x)) (- q) q v.
Proof.
  unfold I2. fold a. rewrite root_1_fin, gtb_p, gtb_1. cbn [andb].
  change (xsub (Fin a) (Fin s1)) with (Fin (a - s1)). change (xadd (Fin a) (Fin s1)) with (Fin (a + s1)).
  rewrite xmin_fin, xmax_fin.
  apply masked_term; try lra. intros L. split; [apply Rmax_l|apply Rmin_l].
Qed.
Section Both.
Hypothesis CQ : c <= q.
Let s2 := sqrt (q ^ 2 - c ^ 2).
Lemma s2_sq : s2 ^ 2 = q ^ 2 - c ^ 2.
Proof. pose proof c_pos. unfold s2. apply pow2_sqrt. nra. Qed.
Lemma s2_pos : 0 <= s2. Proof. apply sqrt_pos. Qed.
Lemma s2_q : s2 <= q.
Proof. pose proof s2_sq. pose proof s2_pos. pose proof c_pos. nra. Qed.
Lemma s1_1 : s1 <= 1.
Proof. pose proof s1_sq. pose proof s1_pos. nra. Qed.
Lemma root_2_fin : root_2 p q = Fin s2.
Proof.
  pose proof c_pos. unfold root_2. rewrite xsqrt_nonneg.
  - unfold s2, c. do 2 f_equal. ring.
  - unfold c in *. nra.
Qed.
Lemma geb_true : geb q ((4 + 3 * q) * p / (3 + 4 * q)) = true.
Proof. rewrite geb_c. destruct Rle_dec; [reflexivity|contradiction]. Qed.
Lemma term1 : exists v, I1 Li2 chi p q = Fin v
  /\ newton_integral (window (Rmax (- s2) (a - s1)) (Rmin s2 (a + s1)) (fun x => (1 + q) / (8 * q) * slope a p c q x)) (- q) q v.
Proof.
  pose proof s2_q. unfold I1. fold a. rewrite root_1_fin, root_2_fin, gtb_p, geb_true. cbn [andb].
  change (xopp (Fin s2)) with (Fin (- s2)). change (xsub (Fin a) (Fin s1)) with (Fin (a - s1)).
  change (xadd (Fin a) (Fin s1)) with (Fin (a + s1)). rewrite xmin_fin, xmax_fin. fold c.
  apply masked_term; try lra. intros L. pose proof (Rmax_l (- s2) (a - s1)). pose proof (Rmin_l s2 (a + s1)). lra.
Qed.
Lemma term3 : exists v, I3 Li2 chi p q = Fin v
  /\ newton_integral (window (Rmax (- s1) (a - s2)) (Rmin s1 (a + s2)) (fun x => (1 + q) / (8 * q) * ratio q * slope a c p 1 x)) (- (1)) 1 v.
Proof.
  pose proof s1_1. unfold I3. fold a. rewrite root_1_fin, root_2_fin, gtb_p, geb_true. cbn [andb].
  change (xopp (Fin s1)) with (Fin (- s1)). change (xsub (Fin a) (Fin s2)) with (Fin (a - s2)).
  change (xadd (Fin a) (Fin s2)) with (Fin (a + s2)). rewrite xmin_fin, xmax_fin. fold c.
  rewrite (masked_ext _ _ _ _ _ (fun hi lo => (1 + q) / (8 * q) * ratio q * (F Li2 hi a c p 1 - F Li2 lo a c p 1))).
  2:{ intros x y. unfold ratio. field. lra. }
  apply masked_term; try lra; [apply c_pos|]. intros L. pose proof (Rmax_l (- s1) (a - s2)). pose proof (Rmin_l s1 (a + s2)). lra.
Qed.
Lemma term4 : exists v, I4 Li2 chi p q = Fin v
  /\ newton_integral (window (Rmax (- 1) (a - s2)) (Rmin 1 (a + s2)) (fun x => - (1 + q) / (8 * q) * ratio q * slope a c 0 1 x)) (- (1)) 1 v.
Proof.
  unfold I4. fold a. rewrite root_2_fin, gtb_p, geb_true. cbn [andb].
  change (xsub (Fin a) (Fin s2)) with (Fin (a - s2)).
  change (xadd (Fin a) (Fin s2)) with (Fin (a + s2)). rewrite xmin_fin, xmax_fin. fold c.
  rewrite (masked_ext _ _ _ _ _ (fun hi lo => - (1 + q) / (8 * q) * ratio q * (F Li2 hi a c 0 1 - F Li2 lo a c 0 1))).
  2:{ intros x y. unfold ratio. field. lra. }
  apply masked_term; try lra; [apply c_pos|]. intros L. pose proof (Rmax_l (- 1) (a - s2)). pose proof (Rmin_l 1 (a + s2)). lra.
Qed.
End Both.

(** the logarithm of the density below r, in terms of x = d z *)
Lemma split_log d r x : 0 < d -> x <> 0 ->
  ln (Rmin 1 ((x / d) ^ 2 + (r / d) ^ 2)) - ln ((x / d) ^ 2)
  = (if Rlt_dec (x ^ 2 + r ^ 2) (d ^ 2) then ln ((x ^ 2 + r ^ 2) / d ^ 2) else 0) - ln ((x ^ 2 + 0 ^ 2) / d ^ 2).
Proof.
  intros D NX. assert (D2 : 0 < d ^ 2) by nra.
  replace ((x / d) ^ 2 + (r / d) ^ 2) with ((x ^ 2 + r ^ 2) / d ^ 2) by (field; lra).
  replace ((x / d) ^ 2) with ((x ^ 2 + 0 ^ 2) / d ^ 2) by (field; lra). f_equal.
  assert (E : (x ^ 2 + r ^ 2) / d ^ 2 * d ^ 2 = x ^ 2 + r ^ 2) by (field; lra). set (y := (x ^ 2 + r ^ 2) / d ^ 2) in *.
  destruct (Rlt_dec (x ^ 2 + r ^ 2) (d ^ 2)) as [L|L].
  - rewrite Rmin_right; [reflexivity|]. apply (Rmult_le_reg_r (d ^ 2)); lra.
  - rewrite Rmin_left; [apply ln_1|]. apply (Rmult_le_reg_r (d ^ 2)); lra.
Qed.
(** first integrand *)
Lemma integrand1 x : - q < x < q -> x <> 0 ->
  spin_density_below 1 (/ q * x) r2 * ((1 + q) * spin_density 1 ((1 + q) * chi - q * (/ q * x)) p)
  = (if Rlt_dec ((a - x) ^ 2) (s1 ^ 2) then
       (1 + q) / 8 * (p / ((x - a) ^ 2 + p ^ 2))
       * ((if Rlt_dec (x ^ 2 + c ^ 2) (q ^ 2) then ln ((x ^ 2 + c ^ 2) / q ^ 2) else 0) - ln ((x ^ 2 + 0 ^ 2) / q ^ 2))
     else 0).
Proof.
  intros X NX. pose proof c_pos as CP. pose proof s1_sq as S1.
  replace (/ q * x) with (x / q) by (unfold Rdiv; ring). replace (q * (x / q)) with x by (field; lra). fold a.
  assert (N : 0 < (x - a) ^ 2 + p ^ 2) by (pose proof (pow2_ge_0 (x - a)); nra).
  destruct (Rlt_dec ((a - x) ^ 2) (s1 ^ 2)) as [L|L].
  - rewrite sd_in by lra. rewrite r2_c, below_value.
    + rewrite pow1, split_log by lra. replace ((a - x) ^ 2) with ((x - a) ^ 2) by ring. field. lra.
    + lra.
    + unfold Rdiv. apply Rmult_integral_contrapositive_currified; [exact NX|apply Rinv_neq_0_compat; lra].
    + replace ((x / q) ^ 2) with (x ^ 2 / q ^ 2) by (field; lra). apply (Rmult_lt_reg_r (q ^ 2)); [nra|].
      unfold Rdiv. rewrite Rmult_assoc, Rinv_l by nra. nra.
    + apply Rdiv_lt_0_compat; lra.
  - rewrite sd_out by lra. ring.
Qed.
(** second integrand *)
Lemma integrand2 x : - 1 < x < 1 -> x <> 0 ->
  spin_density_below 1 x p * ((1 + q) / q * (r2 / p) * spin_density 1 (((1 + q) * chi - x) / q) r2)
  = (if Rlt_dec ((a - x) ^ 2 + c ^ 2) (q ^ 2) then
       (1 + q) / (8 * q) * ratio q * (c / ((x - a) ^ 2 + c ^ 2))
       * ((if Rlt_dec (x ^ 2 + p ^ 2) (1 ^ 2) then ln ((x ^ 2 + p ^ 2) / 1 ^ 2) else 0) - ln ((x ^ 2 + 0 ^ 2) / 1 ^ 2))
     else 0).
Proof.
  intros X NX. pose proof c_pos as CP. fold a. assert (Q2 : 0 < q ^ 2) by nra.
  assert (N : 0 < (x - a) ^ 2 + c ^ 2) by (pose proof (pow2_ge_0 (x - a)); nra).
  assert (E : (((a - x) / q) ^ 2 + (c / q) ^ 2) = ((a - x) ^ 2 + c ^ 2) / q ^ 2) by (field; lra).
  assert (E' : ((a - x) ^ 2 + c ^ 2) / q ^ 2 * q ^ 2 = (a - x) ^ 2 + c ^ 2) by (field; lra).
  rewrite r2_c. destruct (Rlt_dec ((a - x) ^ 2 + c ^ 2) (q ^ 2)) as [L|L].
  - rewrite sd_in.
    + rewrite E, below_value; [|lra|exact NX|nra|lra]. rewrite pow1.
      pose proof (split_log 1 p x ltac:(lra) NX) as S. unfold Rdiv in S. rewrite Rinv_1 in S. rewrite !Rmult_1_r in S.
      rewrite S. unfold Rdiv. rewrite !pow1, Rinv_1, !Rmult_1_r.
      set (w := (if Rlt_dec _ _ then _ else _) - _). replace ((a - x) ^ 2) with ((x - a) ^ 2) by ring.
      assert (RP : ratio q = c / p) by (unfold c; field; lra). rewrite RP. clearbody c w. clear - N HP Q.
      field. repeat split; lra.
    + rewrite E, pow1. apply (Rmult_lt_reg_r (q ^ 2)); lra.
  - rewrite sd_out; [ring|]. rewrite E, pow1. apply (Rmult_le_reg_r (q ^ 2)); lra.
Qed.
(** windows as conditions *)
Lemma window_sq l1 h1 l2 h2 f x (P : Prop) (d : {P} + {~ P}) : (P <-> (l1 < x < h1 /\ l2 < x < h2)) ->
  window (Rmax l1 l2) (Rmin h1 h2) f x = if d then f x else 0.
Proof.
  intros E. unfold window. destruct d as [Y|Y].
  - apply E in Y. destruct (Rlt_dec (Rmax l1 l2) x) as [A|A]; [|exfalso; apply A; apply Rmax_lub_lt; tauto].
    destruct (Rlt_dec x (Rmin h1 h2)) as [B|B]; [reflexivity|]. exfalso. apply B. apply Rmin_glb_lt; tauto.
  - destruct (Rlt_dec (Rmax l1 l2) x) as [A|A]; [destruct (Rlt_dec x (Rmin h1 h2)) as [B|B]|]; try reflexivity.
    exfalso. apply Y, E. pose proof (Rmax_l l1 l2). pose proof (Rmax_r l1 l2). pose proof (Rmin_l h1 h2). pose proof (Rmin_r h1 h2). lra.
Qed.
Lemma prior_value v1 v2 v3 v4 : I1 Li2 chi p q = Fin v1 -> I2 Li2 chi p q = Fin v2 -> I3 Li2 chi p q = Fin v3 -> I4 Li2 chi p q = Fin v4 ->
  xadd (xadd (xadd (I1 Li2 chi p q) (I2 Li2 chi p q)) (I3 Li2 chi p q)) (I4 Li2 chi p q) = Fin (v1 + v2 + v3 + v4).
Proof. intros -> -> -> ->. reflexivity. Qed.
Theorem sum_density : exists v,
  xadd (xadd (xadd (I1 Li2 chi p q) (I2 Li2 chi p q)) (I3 Li2 chi p q)) (I4 Li2 chi p q) = Fin v
  /\ chi_eff_chi_p_density 1 q chi p v.
Proof.
  pose proof c_pos as CP. pose proof s1_pos as S1P. pose proof s1_sq as S1.
  assert (QI : 0 < / q) by (apply Rinv_0_lt_compat; lra).
  (* back to the first variable *)
  assert (BACK : forall f v, newton_integral (fun x => / q * f (/ q * x)) (- q) q v -> newton_integral f (- (1)) 1 v).
  { intros f v N. assert (N' : newton_integral (fun x => / q * f (/ q * x)) (q * - (1)) (q * 1) v).
    { replace (q * - (1)) with (- q) by ring. now rewrite Rmult_1_r. }
    assert (P : 0 < q) by lra. apply (ni_subst q) in N'; [|exact P].
    replace v with (q * (v / q)) by (field; lra).
    refine (ni_ext_except [] _ _ _ _ _ _ (ni_scal q _ _ _ _ N')). intros x _ _. cbv beta.
    replace (/ q * (q * x)) with x by (field; lra). field. lra. }
  destruct term2 as (v2 & E2 & N2).
  destruct (Rle_dec c q) as [CQ|CQ].
  - destruct (term1 CQ) as (v1 & E1 & N1). destruct (term3 CQ) as (v3 & E3 & N3). destruct (term4 CQ) as (v4 & E4 & N4).
    exists (v1 + v2 + v3 + v4). split; [now apply prior_value|].
    pose proof (s2_sq CQ) as S2. pose proof s2_pos as S2P. cbv zeta in S2, S2P. set (s2 := sqrt (q ^ 2 - c ^ 2)) in *.
    unfold chi_eff_chi_p_density. fold r2. cbv zeta. exists (v1 + v2), (v3 + v4). split; [ring|]. split.
    + apply BACK. refine (ni_ext_except [0] _ _ _ _ _ _ (ni_plus _ _ _ _ _ _ N1 N2)).
      intros x X NE. assert (NX : x <> 0) by (intros ->; apply NE; now left). rewrite integrand1 by assumption.
      pose proof (within s1 a x S1P) as W1. pose proof (within s2 0 x S2P) as W2.
      replace ((0 - x) ^ 2) with (x ^ 2) in W2 by ring. rewrite S2 in W2.
      destruct (Rlt_dec ((a - x) ^ 2) (s1 ^ 2)) as [L1|L1].
      * rewrite (window_sq (- q) _ _ _ _ _ ((a - x) ^ 2 < s1 ^ 2) (Rlt_dec _ _)) by (split; [intros K; apply W1 in K; lra|intros [_ K]; now apply W1]).
        rewrite (window_sq _ _ _ _ _ _ (x ^ 2 + c ^ 2 < q ^ 2) (Rlt_dec _ _)).
        2:{ split; [intros K; split; [assert (x ^ 2 < q ^ 2 - c ^ 2) as K' by lra; apply W2 in K'; lra|now apply W1]
                   |intros [K _]; assert (0 - s2 < x < 0 + s2) as K' by lra; apply W2 in K'; lra]. }
        destruct (Rlt_dec ((a - x) ^ 2) (s1 ^ 2)) as [_|n]; [|contradiction]. unfold slope.
        destruct (Rlt_dec (x ^ 2 + c ^ 2) (q ^ 2)) as [_|_]; set (k := p / _); clearbody k; field; lra.
      * rewrite (window_sq _ _ _ _ _ _ False (right (fun f => f))).
        2:{ split; [contradiction|]. intros [_ K]. apply L1, W1, K. }
        rewrite (window_sq _ _ _ _ _ _ False (right (fun f => f))).
        2:{ split; [contradiction|]. intros [_ K]. apply L1, W1, K. }
        ring.
    + refine (ni_ext_except [0] _ _ _ _ _ _ (ni_plus _ _ _ _ _ _ N3 N4)).
      intros x X NE. assert (NX : x <> 0) by (intros ->; apply NE; now left). rewrite integrand2 by assumption.
      pose proof (within s2 a x S2P) as W1. rewrite S2 in W1. pose proof (within s1 0 x S1P) as W2.
      replace ((0 - x) ^ 2) with (x ^ 2) in W2 by ring. rewrite S1 in W2.
      destruct (Rlt_dec ((a - x) ^ 2 + c ^ 2) (q ^ 2)) as [L1|L1].
      * assert (L1' : a - s2 < x < a + s2) by (apply W1; lra).
        rewrite (window_sq (- 1) _ _ _ _ _ True (left I)) by (split; [intros _; lra|trivial]).
        rewrite (window_sq _ _ _ _ _ _ (x ^ 2 + p ^ 2 < 1 ^ 2) (Rlt_dec _ _)).
        2:{ rewrite pow1. split; [intros K; split; [assert (x ^ 2 < 1 - p ^ 2) as K' by lra; apply W2 in K'; lra|exact L1']
                   |intros [K _]; assert (0 - s1 < x < 0 + s1) as K' by lra; apply W2 in K'; lra]. }
        unfold slope. destruct (Rlt_dec (x ^ 2 + p ^ 2) (1 ^ 2)) as [_|_]; set (k := c / _); clearbody k; field; lra.
      * assert (L1' : ~ (a - s2 < x < a + s2)) by (intros K; apply W1 in K; lra).
        rewrite !(window_sq _ _ _ _ _ _ False (right (fun f => f))) by tauto. ring.
  - assert (CQ' : q < c) by lra.
    assert (GF : geb q ((4 + 3 * q) * p / (3 + 4 * q)) = false) by (rewrite geb_c; destruct Rle_dec; [contradiction|reflexivity]).
    exists (0 + v2 + 0 + 0). split.
    { apply prior_value; [|exact E2| |]; [unfold I1|unfold I3|unfold I4]; rewrite GF, andb_false_r; apply masked_false. }
    unfold chi_eff_chi_p_density. fold r2. cbv zeta. exists v2, 0. split; [ring|]. split.
    + apply BACK. refine (ni_ext_except [0] _ _ _ _ _ _ N2).
      intros x X NE. assert (NX : x <> 0) by (intros ->; apply NE; now left). rewrite integrand1 by assumption.
      pose proof (within s1 a x S1P) as W1.
      rewrite (window_sq (- q) _ _ _ _ _ ((a - x) ^ 2 < s1 ^ 2) (Rlt_dec _ _)) by (split; [intros K; apply W1 in K; lra|intros [_ K]; now apply W1]).
      destruct (Rlt_dec ((a - x) ^ 2) (s1 ^ 2)) as [L1|L1]; [|ring]. unfold slope.
      destruct (Rlt_dec (x ^ 2 + c ^ 2) (q ^ 2)) as [n|_]; [exfalso; nra|]. set (k := p / _); clearbody k; field; lra.
    + apply (ni_ext_except [0] (fun _ => 0)); [|apply ni_zero].
      intros x X NE. assert (NX : x <> 0) by (intros ->; apply NE; now left). rewrite integrand2 by assumption.
      destruct (Rlt_dec ((a - x) ^ 2 + c ^ 2) (q ^ 2)) as [n|_]; [exfalso; pose proof (pow2_ge_0 (a - x)); nra|reflexivity].
Qed.
End Terms.
