(** The complex dilogarithm exists: the integral over s from 0 to 1 of - log (1 - s w) / s. *)
From Coq Require Import Reals Lra Lia List Bool.
From Coquelicot Require Import Coquelicot.
From Verif Require Import Model_JointSpin Spec_JointSpin Proofs_Clog.
Open Scope R_scope.

(** ** continuity in two variables *)
Lemma c2_pos f x y : continuity_2d_pt f x y -> 0 < f x y -> locally_2d (fun u v => 0 < f u v) x y.
Proof.
  intros Cn P. destruct (Cn (mkposreal _ P)) as [d D]. exists d. intros u v U V. specialize (D u v U V). cbn in D.
  apply Rabs_def2 in D. lra.
Qed.
Lemma c2_nz f x y : continuity_2d_pt f x y -> f x y <> 0 -> locally_2d (fun u v => f u v <> 0) x y.
Proof.
  intros Cn P. assert (A : 0 < Rabs (f x y)) by now apply Rabs_pos_lt. destruct (Cn (mkposreal _ A)) as [d D]. exists d.
  intros u v U V E. specialize (D u v U V). cbn in D. rewrite E in D. replace (0 - f x y) with (- f x y) in D by ring.
  rewrite Rabs_Ropp in D. lra.
Qed.
Lemma c2_comp (h : R -> R) f x y : continuity_2d_pt f x y -> continuity_pt h (f x y) -> continuity_2d_pt (fun u v => h (f u v)) x y.
Proof. intros A B. now apply continuity_1d_2d_pt_comp. Qed.
Lemma c2_off_slit (a b : R -> R -> R) x y : continuity_2d_pt a x y -> continuity_2d_pt b x y ->
  off_slit (a x y, b x y) -> locally_2d (fun u v => off_slit (a u v, b u v)) x y.
Proof.
  intros A B [O|O]; cbn [fst snd] in O.
  - destruct (c2_pos a x y A O) as [d D]. exists d. intros u v U V. left. now apply D.
  - destruct (c2_nz b x y B O) as [d D]. exists d. intros u v U V. right. now apply D.
Qed.
Lemma c2_carg (a b : R -> R -> R) x y : continuity_2d_pt a x y -> continuity_2d_pt b x y ->
  off_slit (a x y, b x y) -> continuity_2d_pt (fun u v => carg (a u v, b u v)) x y.
Proof.
  intros A B O. assert (CA : forall z, continuity_pt atan z) by (intros z; apply derivable_continuous_pt, derivable_pt_atan).
  destruct (Rlt_dec 0 (a x y)) as [P|P].
  - apply (continuity_2d_pt_ext_loc (fun u v => atan (b u v * / a u v))).
    + destruct (c2_pos a x y A P) as [d D]. exists d. intros u v U V. rewrite carg_right by now apply D. reflexivity.
    + apply (c2_comp atan); [|apply CA]. apply continuity_2d_pt_mult; [exact B|]. apply continuity_2d_pt_inv; [exact A|lra].
  - destruct O as [O|O]; cbn [fst snd] in O; [contradiction|].
    assert (CQ : continuity_2d_pt (fun u v => atan (a u v * / b u v)) x y).
    { apply (c2_comp atan); [|apply CA]. apply continuity_2d_pt_mult; [exact A|]. now apply continuity_2d_pt_inv. }
    destruct (Rlt_dec 0 (b x y)) as [S|S].
    + apply (continuity_2d_pt_ext_loc (fun u v => PI / 2 - atan (a u v * / b u v))).
      * destruct (c2_pos b x y B S) as [d D]. exists d. intros u v U V. rewrite carg_upper by now apply D. reflexivity.
      * apply continuity_2d_pt_minus; [apply continuity_2d_pt_const|exact CQ].
    + apply (continuity_2d_pt_ext_loc (fun u v => - (PI / 2) - atan (a u v * / b u v))).
      * assert (S' : 0 < - b x y) by lra. apply continuity_2d_pt_opp in B.
        destruct (c2_pos _ x y B S') as [d D]. exists d. intros u v U V. rewrite carg_lower; [reflexivity|]. specialize (D u v U V). lra.
      * apply continuity_2d_pt_minus; [apply continuity_2d_pt_const|exact CQ].
Qed.
Lemma c2_lnmod (a b : R -> R -> R) x y : continuity_2d_pt a x y -> continuity_2d_pt b x y ->
  (a x y, b x y) <> RtoC 0 -> continuity_2d_pt (fun u v => ln (Cmod (a u v, b u v))) x y.
Proof.
  intros A B O. assert (N := norm2_pos _ O). cbn [fst snd] in N.
  assert (CN : continuity_2d_pt (fun u v => a u v * a u v + b u v * b u v) x y).
  { apply continuity_2d_pt_plus; apply continuity_2d_pt_mult; assumption. }
  apply (continuity_2d_pt_ext_loc (fun u v => / 2 * ln (a u v * a u v + b u v * b u v))).
  - assert (N' : 0 < a x y * a x y + b x y * b x y) by nra. destruct (c2_pos _ x y CN N') as [d D]. exists d. intros u v U V.
    specialize (D u v U V). cbv beta in D. rewrite ln_Cmod.
    + cbn [fst snd]. do 2 f_equal. ring.
    + intros E. injection E as E1 E2. rewrite E1, E2 in D. lra.
  - apply continuity_2d_pt_mult; [apply continuity_2d_pt_const|]. apply (c2_comp ln _ x y CN).
    apply derivable_continuous_pt. exists (/ (a x y * a x y + b x y * b x y)). apply derivable_pt_lim_ln. nra.
Qed.

(** ** the integrand *)
Definition dom (w : C) : Prop := ~ (snd w = 0 /\ 1 <= fst w).
Definition one_minus (s : R) (w : C) : C := (1 - s * fst w, - (s * snd w)).
Definition kern (w : C) (s : R) : C :=
  if Req_EM_T s 0 then w else Copp (Cdiv (clog (one_minus s w)) (RtoC s)).
Definition Li2c (w : C) : C := (RInt (fun s => fst (kern w s)) 0 1, RInt (fun s => snd (kern w s)) 0 1).

Lemma dom_off_slit w s : dom w -> 0 <= s <= 1 -> off_slit (one_minus s w).
Proof.
  intros D S. unfold off_slit, one_minus, dom in *. cbn [fst snd].
  destruct (Req_dec (snd w) 0) as [E|E].
  - left. assert (fst w < 1) by (destruct (Rlt_dec (fst w) 1); [assumption|exfalso; apply D; split; [exact E|lra]]). destruct (Rle_dec (fst w) 0); [assert (0 <= s * - fst w) by (apply Rmult_le_pos; lra); lra|]. assert (s * fst w <= 1 * fst w) by (apply Rmult_le_compat_r; lra). lra.
  - destruct (Req_dec s 0) as [->|NS]; [left; lra|right; nra].
Qed.
Lemma one_minus_path w t l s : path_derive w t l -> path_derive (fun u => one_minus s (w u)) t (Copp (Cmult (RtoC s) l)).
Proof.
  intros [A B]. split; unfold one_minus; cbn [fst snd Copp Cmult RtoC].
  - evar_last. { exact (d_minus _ _ t _ _ (d_const 1 t) (d_mult _ _ t _ _ (d_const s t) A)). } cbv beta. ring.
  - evar_last. { exact (d_opp _ t _ (d_mult _ _ t _ _ (d_const s t) B)). } cbv beta. ring.
Qed.
Lemma Cinv_RtoC_nz s : s <> 0 -> RtoC s <> RtoC 0.
Proof. intros N E. apply N. now injection E. Qed.
Lemma kern_path w t l s : path_derive w t l -> off_slit (one_minus s (w t)) ->
  path_derive (fun u => kern (w u) s) t (Cdiv l (one_minus s (w t))).
Proof.
  intros P O. pose proof (off_slit_nonzero _ O) as N. unfold kern. destruct (Req_EM_T s 0) as [->|NS].
  - replace (Cdiv l (one_minus 0 (w t))) with l; [exact P|].
    replace (one_minus 0 (w t)) with (RtoC 1) by (apply Ceq; unfold one_minus; cbn; ring). field.
    intros E. injection E. lra.
  - pose proof (pd_opp _ t _ (pd_div _ _ t _ _ (pd_log _ t _ (one_minus_path w t l s P) O) (pd_const (RtoC s) t) (Cinv_RtoC_nz s NS))) as Q.
    cbv beta in Q. match type of Q with path_derive _ _ ?m => replace (Cdiv l (one_minus s (w t))) with m; [exact Q|] end.
    field. split; [exact N|now apply Cinv_RtoC_nz].
Qed.
Lemma one_minus_s w s : path_derive (fun s => one_minus s w) s (Copp w).
Proof.
  split; unfold one_minus; cbn [fst snd Copp].
  - auto_derive; [auto|ring].
  - auto_derive; [auto|ring].
Qed.
Lemma quotient_continuous (h : R -> R) l : is_derive h 0 l -> h 0 = 0 ->
  continuous (fun y => if Req_EM_T y 0 then l else h y / y) 0.
Proof.
  intros Hd H0. apply continuity_pt_filterlim. intros eps Heps. apply is_derive_Reals in Hd. destruct (Hd eps Heps) as (delta & Hdel).
  exists delta. split; [apply cond_pos|]. intros y (Hy & Hdist). unfold dist in *; simpl in *; unfold R_dist in *.
  destruct (Req_EM_T 0 0) as [_|n]; [|congruence].
  destruct (Req_EM_T y 0) as [->|Hne]; [replace (l - l) with 0 by ring; rewrite Rabs_R0; lra|].
  rewrite Rminus_0_r in Hdist. specialize (Hdel y Hne Hdist). rewrite Rplus_0_l, H0, Rminus_0_r in Hdel. exact Hdel.
Qed.
Lemma clog_1 : clog (RtoC 1) = RtoC 0.
Proof.
  unfold clog. rewrite Cmod_1, ln_1. unfold RtoC. rewrite carg_right by lra. replace (0 / 1) with 0 by field. now rewrite atan_0.
Qed.
Lemma one_minus_0 w : one_minus 0 w = RtoC 1.
Proof. apply Ceq; unfold one_minus; cbn; ring. Qed.
Lemma Cdiv_RtoC z s : s <> 0 -> Cdiv z (RtoC s) = (fst z / s, snd z / s).
Proof. intros N. apply Ceq; unfold Cdiv, Cmult, Cinv; cbn [fst snd RtoC]; field; nra. Qed.
Lemma kern_cont w s : dom w -> 0 <= s <= 1 ->
  continuous (fun s => fst (kern w s)) s /\ continuous (fun s => snd (kern w s)) s.
Proof.
  intros D S. pose proof (dom_off_slit w s D S) as O.
  assert (E : forall u, kern w u = (if Req_EM_T u 0 then fst w else - fst (clog (one_minus u w)) / u,
                                     if Req_EM_T u 0 then snd w else - snd (clog (one_minus u w)) / u)).
  { intros u. unfold kern. destruct (Req_EM_T u 0); [apply surjective_pairing|]. rewrite Cdiv_RtoC by assumption.
    apply Ceq; cbn [fst snd Copp]; field; assumption. }
  pose proof (pd_opp _ s _ (pd_log _ s _ (one_minus_s w s) O)) as [P1 P2]. cbn [fst snd Copp] in P1, P2.
  destruct (Req_dec s 0) as [->|NS].
  - rewrite one_minus_0 in P1, P2.
    assert (V1 : - fst (Cdiv (Copp w) (RtoC 1)) = fst w) by (rewrite Cdiv_RtoC by lra; cbn; field).
    assert (V2 : - snd (Cdiv (Copp w) (RtoC 1)) = snd w) by (rewrite Cdiv_RtoC by lra; cbn; field).
    change (is_derive (fun s => - fst (clog (one_minus s w))) 0 (- fst (Cdiv (Copp w) (RtoC 1)))) in P1.
    change (is_derive (fun s => - snd (clog (one_minus s w))) 0 (- snd (Cdiv (Copp w) (RtoC 1)))) in P2.
    rewrite V1 in P1. rewrite V2 in P2. split.
    + apply (continuous_ext (fun u => if Req_EM_T u 0 then fst w else - fst (clog (one_minus u w)) / u)); [intros u; now rewrite E|].
      apply (quotient_continuous (fun u => - fst (clog (one_minus u w)))); [exact P1|]. rewrite one_minus_0, clog_1. cbn. ring.
    + apply (continuous_ext (fun u => if Req_EM_T u 0 then snd w else - snd (clog (one_minus u w)) / u)); [intros u; now rewrite E|].
      apply (quotient_continuous (fun u => - snd (clog (one_minus u w)))); [exact P2|]. rewrite one_minus_0, clog_1. cbn. ring.
  - assert (PS : 0 < s) by lra. pose proof (is_derive_locally_pos _ _ _ (is_derive_id s) PS) as LS. split.
    + apply (continuous_ext_loc _ (fun u => - fst (clog (one_minus u w)) / u)).
      { revert LS. apply filter_imp. intros u U. rewrite E. cbn [fst]. destruct (Req_EM_T u 0); [lra|reflexivity]. }
      apply (ex_derive_continuous (V := R_NormedModule)). eexists. exact (d_div _ _ s _ _ P1 (is_derive_id s) NS).
    + apply (continuous_ext_loc _ (fun u => - snd (clog (one_minus u w)) / u)).
      { revert LS. apply filter_imp. intros u U. rewrite E. cbn [snd]. destruct (Req_EM_T u 0); [lra|reflexivity]. }
      apply (ex_derive_continuous (V := R_NormedModule)). eexists. exact (d_div _ _ s _ _ P2 (is_derive_id s) NS).
Qed.
Lemma kern_int w : dom w -> ex_RInt (fun s => fst (kern w s)) 0 1 /\ ex_RInt (fun s => snd (kern w s)) 0 1.
Proof.
  intros D. split; apply (ex_RInt_continuous (V := R_CompleteNormedModule)); intros s S; rewrite Rmin_left, Rmax_right in S by lra;
  apply kern_cont; assumption.
Qed.

(** ** the derivative along a straight path *)
Definition phi (w : C) : C := if Req_EM_T (Cmod w) 0 then RtoC 1 else Cdiv (Copp (clog (Cminus (RtoC 1) w))) w.
Lemma phi_0 : phi (RtoC 0) = RtoC 1.
Proof. unfold phi. rewrite Cmod_0. destruct Req_EM_T; [reflexivity|congruence]. Qed.
Lemma phi_nz w : w <> RtoC 0 -> phi w = Cdiv (Copp (clog (Cminus (RtoC 1) w))) w.
Proof. intros N. unfold phi. destruct Req_EM_T as [E|]; [|reflexivity]. apply Cmod_eq_0 in E. contradiction. Qed.
Lemma one_minus_1 w : one_minus 1 w = Cminus (RtoC 1) w.
Proof. apply Ceq; unfold one_minus; cbn; ring. Qed.
Lemma C_dec (w : C) : {w = RtoC 0} + {w <> RtoC 0}.
Proof.
  destruct (Req_EM_T (fst w) 0) as [A|A]; [destruct (Req_EM_T (snd w) 0) as [B|B]|].
  - left. now apply Ceq.
  - right. intros ->. now apply B.
  - right. intros ->. now apply A.
Qed.
Lemma inv_int w l : dom w ->
  is_RInt (fun s => fst (Cdiv l (one_minus s w))) 0 1 (fst (Cmult (phi w) l))
  /\ is_RInt (fun s => snd (Cdiv l (one_minus s w))) 0 1 (snd (Cmult (phi w) l)).
Proof.
  intros D. destruct (C_dec w) as [->|N].
  - rewrite phi_0. assert (E : forall s, Cdiv l (one_minus s (RtoC 0)) = l).
    { intros s. replace (one_minus s (RtoC 0)) with (RtoC 1) by (apply Ceq; unfold one_minus; cbn; ring). field.
      intros E. injection E. lra. }
    assert (E2 : Cmult (RtoC 1) l = l) by ring. rewrite E2. split.
    + apply (is_RInt_ext (fun _ => fst l)); [intros s _; now rewrite E|].
      evar_last. { apply (is_RInt_const (V := R_NormedModule)). } change (@scal R_AbsRing R_NormedModule) with Rmult. rewrite Rminus_0_r. apply Rmult_1_l.
    + apply (is_RInt_ext (fun _ => snd l)); [intros s _; now rewrite E|].
      evar_last. { apply (is_RInt_const (V := R_NormedModule)). } change (@scal R_AbsRing R_NormedModule) with Rmult. rewrite Rminus_0_r. apply Rmult_1_l.
  - set (A := fun s => Cmult (Cdiv (Copp (clog (one_minus s w))) w) l).
    assert (P : forall s, 0 <= s <= 1 -> path_derive A s (Cdiv l (one_minus s w))).
    { intros s S. pose proof (dom_off_slit w s D S) as O. pose proof (off_slit_nonzero _ O) as N'.
      pose proof (pd_mult _ _ s _ _ (pd_div _ _ s _ _ (pd_opp _ s _ (pd_log _ s _ (one_minus_s w s) O)) (pd_const w s) N) (pd_const l s)) as Q.
      cbv beta in Q. match type of Q with path_derive _ _ ?m => replace (Cdiv l (one_minus s w)) with m; [exact Q|] end.
      field. split; assumption. }
    assert (CC : forall s, 0 <= s <= 1 -> continuous (fun s => fst (Cdiv l (one_minus s w))) s /\ continuous (fun s => snd (Cdiv l (one_minus s w))) s).
    { intros s S. pose proof (dom_off_slit w s D S) as O. pose proof (off_slit_nonzero _ O) as N'.
      destruct (pd_div _ _ s _ _ (pd_const l s) (one_minus_s w s) N') as [Q1 Q2].
      split; apply (ex_derive_continuous (V := R_NormedModule)); eexists; [exact Q1|exact Q2]. }
    assert (V : Cmult (phi w) l = Cminus (A 1) (A 0)).
    { unfold A. rewrite one_minus_0, clog_1, one_minus_1, phi_nz by exact N. field. exact N. }
    rewrite V. split.
    + evar_last.
      { apply (is_RInt_derive (V := R_CompleteNormedModule) (fun s => fst (A s))); intros s S; rewrite Rmin_left, Rmax_right in S by lra;
        [apply (P s S)|apply (CC s S)]. }
      reflexivity.
    + evar_last.
      { apply (is_RInt_derive (V := R_CompleteNormedModule) (fun s => snd (A s))); intros s S; rewrite Rmin_left, Rmax_right in S by lra;
        [apply (P s S)|apply (CC s S)]. }
      reflexivity.
Qed.
Lemma dom_locally w t l : path_derive w t l -> dom (w t) -> locally t (fun s => dom (w s)).
Proof.
  intros P D. pose proof (dom_off_slit _ 1 D ltac:(lra)) as O. unfold off_slit, one_minus in O. cbn [fst snd] in O.
  destruct P as [P1 P2]. destruct O as [O|O].
  - assert (O' : 0 < 1 - fst (w t)) by lra.
    pose proof (is_derive_locally_pos _ _ _ (d_minus _ _ t _ _ (d_const 1 t) P1) O') as L. revert L. apply filter_imp.
    intros s H. unfold dom. lra.
  - assert (O' : 0 < snd (w t) ^ 2) by nra. pose proof (is_derive_locally_pos _ _ _ (d_sq _ t _ P2) O') as L. revert L. apply filter_imp.
    intros s H. unfold dom. intros [E _]. rewrite E in H. lra.
Qed.

Section Line.
Variables x0 y0 lx ly : R.
Let W (t : R) : C := (x0 + t * lx, y0 + t * ly).
Lemma line_path t : path_derive W t (lx, ly).
Proof. split; cbn [fst snd W]; unfold W; cbn [fst snd]; (auto_derive; [auto|ring]). Qed.
Lemma line_derive t s : off_slit (one_minus s (W t)) ->
  is_derive (fun u => fst (kern (W u) s)) t (fst (Cdiv (lx, ly) (one_minus s (W t))))
  /\ is_derive (fun u => snd (kern (W u) s)) t (snd (Cdiv (lx, ly) (one_minus s (W t)))).
Proof. intros O. exact (kern_path W t (lx, ly) s (line_path t) O). Qed.
Let a (t s : R) : R := 1 - s * (x0 + t * lx).
Let b (t s : R) : R := - (s * (y0 + t * ly)).
Lemma c2_a t s : continuity_2d_pt a t s.
Proof.
  unfold a. apply continuity_2d_pt_minus; [apply continuity_2d_pt_const|]. apply continuity_2d_pt_mult; [apply continuity_2d_pt_id2|].
  apply continuity_2d_pt_plus; [apply continuity_2d_pt_const|]. apply continuity_2d_pt_mult; [apply continuity_2d_pt_id1|apply continuity_2d_pt_const].
Qed.
Lemma c2_b t s : continuity_2d_pt b t s.
Proof.
  unfold b. apply (continuity_2d_pt_opp (fun t s => s * (y0 + t * ly))). apply continuity_2d_pt_mult; [apply continuity_2d_pt_id2|].
  apply continuity_2d_pt_plus; [apply continuity_2d_pt_const|]. apply continuity_2d_pt_mult; [apply continuity_2d_pt_id1|apply continuity_2d_pt_const].
Qed.
Lemma c2_norm t s : continuity_2d_pt (fun t s => a t s * a t s + b t s * b t s) t s.
Proof. apply continuity_2d_pt_plus; apply continuity_2d_pt_mult; auto using c2_a, c2_b. Qed.
Lemma line_value t s : off_slit (one_minus s (W t)) ->
  fst (Cdiv (lx, ly) (one_minus s (W t))) = (lx * a t s + ly * b t s) * / (a t s * a t s + b t s * b t s)
  /\ snd (Cdiv (lx, ly) (one_minus s (W t))) = (ly * a t s - lx * b t s) * / (a t s * a t s + b t s * b t s)
  /\ 0 < a t s * a t s + b t s * b t s.
Proof.
  intros O. assert (N := norm2_pos _ (off_slit_nonzero _ O)).
  change (one_minus s (W t)) with (a t s, b t s) in *. cbn [fst snd] in N. clearbody a b.
  assert (N' : 0 < a t s * a t s + b t s * b t s) by nra.
  split; [|split; [|exact N']]; unfold Cdiv, Cmult, Cinv; cbn [fst snd]; field; repeat split; nra.
Qed.
Lemma line_off_slit t s : off_slit (one_minus s (W t)) -> locally_2d (fun u v => off_slit (one_minus v (W u))) t s.
Proof. intros O. exact (c2_off_slit a b t s (c2_a t s) (c2_b t s) O). Qed.
Lemma line_c2 t s : off_slit (one_minus s (W t)) ->
  continuity_2d_pt (fun u v => Derive (fun z => fst (kern (W z) v)) u) t s
  /\ continuity_2d_pt (fun u v => Derive (fun z => snd (kern (W z) v)) u) t s.
Proof.
  intros O. destruct (line_off_slit t s O) as [d D]. destruct (line_value t s O) as (_ & _ & N).
  assert (CI : continuity_2d_pt (fun u v => / (a u v * a u v + b u v * b u v)) t s).
  { apply continuity_2d_pt_inv; [apply c2_norm|lra]. }
  split.
  - apply (continuity_2d_pt_ext_loc (fun u v => (lx * a u v + ly * b u v) * / (a u v * a u v + b u v * b u v))).
    + exists d. intros u v U V. specialize (D u v U V). destruct (line_value u v D) as (E & _). destruct (line_derive u v D) as [Q _].
      symmetry. rewrite <- E. now apply is_derive_unique.
    + apply continuity_2d_pt_mult; [|exact CI].
      apply continuity_2d_pt_plus; (apply continuity_2d_pt_mult; [apply continuity_2d_pt_const|auto using c2_a, c2_b]).
  - apply (continuity_2d_pt_ext_loc (fun u v => (ly * a u v - lx * b u v) * / (a u v * a u v + b u v * b u v))).
    + exists d. intros u v U V. specialize (D u v U V). destruct (line_value u v D) as (_ & E & _). destruct (line_derive u v D) as [_ Q].
      symmetry. rewrite <- E. now apply is_derive_unique.
    + apply continuity_2d_pt_mult; [|exact CI].
      apply continuity_2d_pt_minus; (apply continuity_2d_pt_mult; [apply continuity_2d_pt_const|auto using c2_a, c2_b]).
Qed.
Lemma Li2c_line t : dom (W t) -> path_derive (fun u => Li2c (W u)) t (Cmult (phi (W t)) (lx, ly)).
Proof.
  intros D. pose proof (dom_locally W t _ (line_path t) D) as LD. destruct (inv_int (W t) (lx, ly) D) as [I1 I2].
  assert (O : forall s, 0 <= s <= 1 -> off_slit (one_minus s (W t))) by (intros s S; now apply dom_off_slit).
  split.
  - evar_last.
    { unfold Li2c. cbn [fst]. apply (is_derive_RInt_param (fun u s => fst (kern (W u) s)) 0 1 t).
      - revert LD. apply filter_imp. intros u Du s S. rewrite Rmin_left, Rmax_right in S by lra. eexists.
        apply (line_derive u s). now apply dom_off_slit.
      - intros s S. rewrite Rmin_left, Rmax_right in S by lra. apply line_c2. now apply O.
      - revert LD. apply filter_imp. intros u Du. exact (proj1 (kern_int _ Du)). }
    rewrite <- (is_RInt_unique _ _ _ _ I1). apply RInt_ext. intros s S. rewrite Rmin_left, Rmax_right in S by lra.
    apply is_derive_unique. apply (line_derive t s). apply O. lra.
  - evar_last.
    { unfold Li2c. cbn [snd]. apply (is_derive_RInt_param (fun u s => snd (kern (W u) s)) 0 1 t).
      - revert LD. apply filter_imp. intros u Du s S. rewrite Rmin_left, Rmax_right in S by lra. eexists.
        apply (line_derive u s). now apply dom_off_slit.
      - intros s S. rewrite Rmin_left, Rmax_right in S by lra. apply line_c2. now apply O.
      - revert LD. apply filter_imp. intros u Du. exact (proj2 (kern_int _ Du)). }
    rewrite <- (is_RInt_unique _ _ _ _ I2). apply RInt_ext. intros s S. rewrite Rmin_left, Rmax_right in S by lra.
    apply is_derive_unique. apply (line_derive t s). apply O. lra.
Qed.
End Line.
Lemma Li2c_x x y : dom (x, y) -> path_derive (fun u => Li2c (u, y)) x (phi (x, y)).
Proof.
  intros D. assert (E : forall u, (0 + u * 1, y + u * 0) = (u, y)) by (intros u; f_equal; ring).
  pose proof (Li2c_line 0 y 1 0 x) as P. cbv zeta beta in P. rewrite E in P.
  replace (phi (x, y)) with (Cmult (phi (x, y)) (1, 0)) by (apply Ceq; cbn; ring).
  apply (pd_ext (fun u => Li2c (0 + u * 1, y + u * 0))); [intros u; now rewrite E|]. now apply P.
Qed.
Lemma Li2c_y x y : dom (x, y) -> path_derive (fun u => Li2c (x, u)) y (Cmult (phi (x, y)) Ci).
Proof.
  intros D. assert (E : forall u, (x + u * 0, 0 + u * 1) = (x, u)) by (intros u; f_equal; ring).
  pose proof (Li2c_line x 0 0 1 y) as P. cbv zeta beta in P. rewrite E in P.
  apply (pd_ext (fun u => Li2c (x + u * 0, 0 + u * 1))); [intros u; now rewrite E|]. now apply P.
Qed.

(** ** phi is continuous *)
Lemma phi_near_0 w : Cmod w <= / 2 -> Rabs (fst (phi w) - 1) <= 2 * Cmod w /\ Rabs (snd (phi w)) <= 2 * Cmod w.
Proof.
  intros B. destruct w as [x y]. set (m := Cmod (x, y)) in *.
  assert (M0 : 0 <= m) by apply Cmod_ge_0.
  assert (M2 : m ^ 2 = x ^ 2 + y ^ 2) by (unfold m, Cmod; cbn [fst snd]; apply pow2_sqrt; nra).
  assert (XM : Rabs x <= m). { rewrite <- (Rabs_right m) by lra. apply Rsqr_le_abs_0. unfold Rsqr. nra. }
  assert (YM : Rabs y <= m). { rewrite <- (Rabs_right m) by lra. apply Rsqr_le_abs_0. unfold Rsqr. nra. }
  assert (D : dom (x, y)). { intros [_ L]. cbn [fst] in L. apply Rabs_le_between in XM. lra. }
  assert (K : forall s, 0 <= s <= 1 -> Cmod (Cminus (Cinv (one_minus s (x, y))) (RtoC 1)) <= 2 * m).
  { intros s S. pose proof (off_slit_nonzero _ (dom_off_slit (x, y) s D S)) as N.
    replace (Cminus (Cinv (one_minus s (x, y))) (RtoC 1)) with (Cdiv (Cminus (RtoC 1) (one_minus s (x, y))) (one_minus s (x, y))) by (field; exact N).
    rewrite Cmod_div by exact N. apply Rle_div_l; [now apply Cmod_gt_0|].
    replace (Cminus (RtoC 1) (one_minus s (x, y))) with (Cmult (RtoC s) (x, y)) by (apply Ceq; unfold one_minus; cbn; ring).
    rewrite Cmod_mult, Cmod_R, Rabs_right by lra. fold m.
    assert (L : 1 <= Cmod (one_minus s (x, y)) + s * m).
    { replace (s * m) with (Cmod (Cmult (RtoC s) (x, y))) by (rewrite Cmod_mult, Cmod_R, Rabs_right by lra; reflexivity).
      replace 1 with (Cmod (Cplus (one_minus s (x, y)) (Cmult (RtoC s) (x, y)))); [apply Cmod_triangle|].
      replace (Cplus (one_minus s (x, y)) (Cmult (RtoC s) (x, y))) with (RtoC 1) by (apply Ceq; unfold one_minus; cbn; ring). apply Cmod_1. }
    assert (s * m <= 1 * m) by (apply Rmult_le_compat_r; lra). nra. }
  destruct (inv_int (x, y) (RtoC 1) D) as [I1 I2]. replace (Cmult (phi (x, y)) (RtoC 1)) with (phi (x, y)) in I1, I2 by ring.
  assert (E : forall s, Cdiv (RtoC 1) (one_minus s (x, y)) = Cinv (one_minus s (x, y))) by (intros s; unfold Cdiv; ring).
  assert (RE : forall z : C, Rabs (fst z) <= Cmod z /\ Rabs (snd z) <= Cmod z).
  { intros z. split; unfold Cmod; rewrite <- sqrt_Rsqr_abs; apply sqrt_le_1_alt; unfold Rsqr; nra. }
  split.
  - assert (J : is_RInt (fun s => fst (Cinv (one_minus s (x, y))) - 1) 0 1 (fst (phi (x, y)) - 1)).
    { evar_last. { apply (is_RInt_minus (V := R_NormedModule)); [|apply (is_RInt_const (V := R_NormedModule))].
        apply (is_RInt_ext (fun s => fst (Cdiv (RtoC 1) (one_minus s (x, y))))); [intros s _; now rewrite E|exact I1]. }
      change (@scal R_AbsRing R_NormedModule) with Rmult. unfold minus, plus, opp; cbn. ring. }
    rewrite <- (is_RInt_unique _ _ _ _ J).
    replace (2 * m) with ((1 - 0) * (2 * m)) by ring. apply abs_RInt_le_const; [lra|now exists (fst (phi (x, y)) - 1)|].
    intros s S. eapply Rle_trans; [|apply (K s S)]. exact (proj1 (RE (Cminus (Cinv (one_minus s (x, y))) (RtoC 1)))).
  - assert (J : is_RInt (fun s => snd (Cinv (one_minus s (x, y)))) 0 1 (snd (phi (x, y)))).
    { apply (is_RInt_ext (fun s => snd (Cdiv (RtoC 1) (one_minus s (x, y))))); [intros s _; now rewrite E|exact I2]. }
    rewrite <- (is_RInt_unique _ _ _ _ J).
    replace (2 * m) with ((1 - 0) * (2 * m)) by ring. apply abs_RInt_le_const; [lra|now exists (snd (phi (x, y)))|].
    intros s S. eapply Rle_trans; [|apply (K s S)]. pose proof (proj2 (RE (Cminus (Cinv (one_minus s (x, y))) (RtoC 1)))) as Q.
    cbn [snd Cminus Cplus Copp RtoC] in Q. rewrite Ropp_0, Rplus_0_r in Q. exact Q.
Qed.
Lemma phi_c2 x y : dom (x, y) ->
  continuity_2d_pt (fun u v => fst (phi (u, v))) x y /\ continuity_2d_pt (fun u v => snd (phi (u, v))) x y.
Proof.
  intros D. destruct (C_dec (x, y)) as [E|N].
  - injection E as -> ->. 
    assert (B : forall eps : posreal, locally_2d (fun u v => 2 * Cmod (u, v) < eps /\ Cmod (u, v) <= / 2) 0 0).
    { intros eps. assert (P : 0 < Rmin (eps / 4) (/ 4)) by (apply Rmin_glb_lt; [pose proof (cond_pos eps)|]; lra).
      exists (mkposreal _ P). intros u v U V. cbn in U, V. rewrite Rminus_0_r in U, V.
      pose proof (Rmin_l (eps / 4) (/ 4)). pose proof (Rmin_r (eps / 4) (/ 4)). set (d := Rmin _ _) in *.
      assert (M : Cmod (u, v) <= Rabs u + Rabs v).
      { replace (u, v) with (Cplus (RtoC u) (Cmult Ci (RtoC v))) by (apply Ceq; cbn; ring).
        eapply Rle_trans; [apply Cmod_triangle|]. rewrite Cmod_mult, !Cmod_R.
        assert (CI : Cmod Ci = 1) by (unfold Cmod, Ci; cbn [fst snd]; replace (0 ^ 2 + 1 ^ 2) with 1 by ring; apply sqrt_1). rewrite CI. lra. }
      lra. }
    change (0, 0) with (RtoC 0). split.
    + intros eps. destruct (B eps) as [d Hd]. exists d. intros u v U V. destruct (Hd u v U V) as [L1 L2].
      change (0, 0) with (RtoC 0). rewrite phi_0. change (fst (RtoC 1)) with 1. destruct (phi_near_0 (u, v) L2) as [K _]. lra.
    + intros eps. destruct (B eps) as [d Hd]. exists d. intros u v U V. destruct (Hd u v U V) as [L1 L2].
      change (0, 0) with (RtoC 0). rewrite phi_0. change (snd (RtoC 1)) with 0. rewrite Rminus_0_r. destruct (phi_near_0 (u, v) L2) as [_ K]. lra.
  - pose proof (norm2_pos _ N) as N2. cbn [fst snd] in N2.
    assert (O : off_slit (1 - x, - y)).
    { pose proof (dom_off_slit _ 1 D ltac:(lra)) as O. unfold one_minus in O. cbn [fst snd] in O. rewrite !Rmult_1_l in O. exact O. }
    assert (CA : continuity_2d_pt (fun u v => 1 - u) x y) by (apply continuity_2d_pt_minus; [apply continuity_2d_pt_const|apply continuity_2d_pt_id1]).
    assert (CB : continuity_2d_pt (fun u v => - v) x y) by (apply (continuity_2d_pt_opp (fun u v => v)); apply continuity_2d_pt_id2).
    pose proof (c2_carg _ _ x y CA CB O) as K2. pose proof (c2_lnmod _ _ x y CA CB (off_slit_nonzero _ O)) as K1.
    assert (CN : continuity_2d_pt (fun u v => u * u + v * v) x y).
    { apply continuity_2d_pt_plus; apply continuity_2d_pt_mult; (apply continuity_2d_pt_id1 || apply continuity_2d_pt_id2). }
    assert (CI : continuity_2d_pt (fun u v => / (u * u + v * v)) x y) by (apply continuity_2d_pt_inv; [exact CN|nra]).
    assert (LN : locally_2d (fun u v => 0 < u * u + v * v) x y) by (apply (c2_pos _ x y CN); nra).
    assert (EV : forall u v, 0 < u * u + v * v ->
      fst (phi (u, v)) = - (ln (Cmod (1 - u, - v)) * u + carg (1 - u, - v) * v) * / (u * u + v * v)
      /\ snd (phi (u, v)) = (ln (Cmod (1 - u, - v)) * v - carg (1 - u, - v) * u) * / (u * u + v * v)).
    { intros u v P. assert (NZ : (u, v) <> RtoC 0) by (intros E; injection E as -> ->; lra). rewrite phi_nz by exact NZ.
      replace (Cminus (RtoC 1) (u, v)) with (1 - u, - v) by (apply Ceq; cbn; ring).
      split; unfold clog, Cdiv, Cmult, Cinv, Copp; cbn [fst snd]; field; repeat split; nra. }
    destruct LN as [d Hd]. split.
    + apply (continuity_2d_pt_ext_loc (fun u v => - (ln (Cmod (1 - u, - v)) * u + carg (1 - u, - v) * v) * / (u * u + v * v))).
      * exists d. intros u v U V. symmetry. apply EV. now apply Hd.
      * apply continuity_2d_pt_mult; [|exact CI]. apply (continuity_2d_pt_opp (fun u v => ln (Cmod (1 - u, - v)) * u + carg (1 - u, - v) * v)).
        apply continuity_2d_pt_plus; apply continuity_2d_pt_mult; try assumption; (apply continuity_2d_pt_id1 || apply continuity_2d_pt_id2).
    + apply (continuity_2d_pt_ext_loc (fun u v => (ln (Cmod (1 - u, - v)) * v - carg (1 - u, - v) * u) * / (u * u + v * v))).
      * exists d. intros u v U V. symmetry. apply EV. now apply Hd.
      * apply continuity_2d_pt_mult; [|exact CI].
        apply continuity_2d_pt_minus; apply continuity_2d_pt_mult; try assumption; (apply continuity_2d_pt_id1 || apply continuity_2d_pt_id2).
Qed.

(** ** the dilogarithm is differentiable *)
Lemma dom_locally_2d x y : dom (x, y) -> locally (x, y) (fun u : R * R => dom u).
Proof.
  intros D. pose proof (dom_off_slit _ 1 D ltac:(lra)) as O. unfold one_minus in O. cbn [fst snd] in O. rewrite !Rmult_1_l in O.
  destruct (c2_off_slit (fun u v => 1 - u) (fun u v => - v) x y) as [d Hd].
  - apply continuity_2d_pt_minus; [apply continuity_2d_pt_const|apply continuity_2d_pt_id1].
  - apply (continuity_2d_pt_opp (fun u v => v)); apply continuity_2d_pt_id2.
  - exact O.
  - exists d. intros [u v] [U V]. specialize (Hd u v U V). unfold dom. cbn [fst snd]. destruct Hd as [H|H]; cbn [fst snd] in H; lra.
Qed.
Lemma Li2c_path w t l : path_derive w t l -> dom (w t) -> path_derive (fun s => Li2c (w s)) t (Cmult (phi (w t)) l).
Proof.
  intros [P1 P2] D. destruct (w t) as [x y] eqn:Ew.
  assert (X : fst (w t) = x) by now rewrite Ew. assert (Y : snd (w t) = y) by now rewrite Ew.
  destruct (phi_c2 x y D) as [C1 C2]. pose proof (dom_locally_2d x y D) as LD.
  pose proof (Li2c_y x y D) as [Y1 Y2].
  assert (Ep : forall s, Li2c (w s) = Li2c (fst (w s), snd (w s))) by (intros s; now rewrite <- surjective_pairing).
  split.
  - assert (FD := is_derive_filterdiff (fun u v => fst (Li2c (u, v))) x y (fun u v => fst (phi (u, v))) (fst (Cmult (phi (x, y)) Ci))).
    specialize (FD ltac:(revert LD; apply filter_imp; intros [u v] Du; cbn [fst snd]; apply (Li2c_x u v Du)) Y1).
    specialize (FD ltac:(apply continuity_2d_pt_filterlim in C1; exact C1)).
    apply filterdiff_differentiable_pt_lim in FD. rewrite <- X, <- Y in FD. apply is_derive_Reals in P1. apply is_derive_Reals in P2.
    pose proof (derivable_pt_lim_comp_2d _ _ _ t _ _ _ _ FD P1 P2) as Q. apply is_derive_Reals in Q.
    evar_last. { apply (is_derive_ext _ (fun s => fst (Li2c (w s))) t _ (fun s => f_equal fst (eq_sym (Ep s))) Q). }
    rewrite X, Y. cbn [fst snd Cmult Ci]. ring.
  - assert (FD := is_derive_filterdiff (fun u v => snd (Li2c (u, v))) x y (fun u v => snd (phi (u, v))) (snd (Cmult (phi (x, y)) Ci))).
    specialize (FD ltac:(revert LD; apply filter_imp; intros [u v] Du; cbn [fst snd]; apply (Li2c_x u v Du)) Y2).
    specialize (FD ltac:(apply continuity_2d_pt_filterlim in C2; exact C2)).
    apply filterdiff_differentiable_pt_lim in FD. rewrite <- X, <- Y in FD. apply is_derive_Reals in P1. apply is_derive_Reals in P2.
    pose proof (derivable_pt_lim_comp_2d _ _ _ t _ _ _ _ FD P1 P2) as Q. apply is_derive_Reals in Q.
    evar_last. { apply (is_derive_ext _ (fun s => snd (Li2c (w s))) t _ (fun s => f_equal snd (eq_sym (Ep s))) Q). }
    rewrite X, Y. cbn [fst snd Cmult Ci]. ring.
Qed.
Lemma Li2c_0 : Li2c (RtoC 0) = RtoC 0.
Proof.
  assert (E : forall s, kern (RtoC 0) s = RtoC 0).
  { intros s. unfold kern. destruct (Req_EM_T s 0); [reflexivity|].
    replace (one_minus s (RtoC 0)) with (RtoC 1) by (apply Ceq; unfold one_minus; cbn; ring). rewrite clog_1.
    field. now apply Cinv_RtoC_nz. }
  assert (Z : RInt (fun _ : R => 0) 0 1 = 0).
  { apply is_RInt_unique. evar_last. { apply (is_RInt_const (V := R_NormedModule)). } apply Rmult_0_r. }
  unfold Li2c. apply Ceq; cbn [fst snd RtoC]; (rewrite (RInt_ext _ (fun _ => 0)); [exact Z|intros s _; now rewrite E]).
Qed.
Theorem complex_dilogarithm_exists : complex_dilogarithm Li2c.
Proof.
  split; [exact Li2c_0|split].
  - intros w t l P N D. pose proof (Li2c_path w t l P D) as Q. now rewrite phi_nz in Q by exact N.
  - intros w t l P E. assert (D : dom (w t)) by (rewrite E; intros [_ L]; cbn in L; lra).
    pose proof (Li2c_path w t l P D) as Q. rewrite E, phi_0 in Q. now replace (Cmult (RtoC 1) l) with l in Q by ring.
Qed.
