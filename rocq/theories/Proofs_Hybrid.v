(** Lemmas on the hybrid population models. *)
From Coq Require Import String Reals Lra Lia List Bool.
From Coquelicot Require Import Coquelicot.
From Verif Require Import Model_X Spec_X Proofs_X Spec_Density Proofs_Integral Spec_MonteCarlo Proofs_MonteCarlo Model_Guru Model_Powerlaw Proofs_Powerlaw
     Model_Gauss Proofs_Gauss Model_Constraints Proofs_Constraints Model_Joint Spec_Joint Proofs_Joint Proofs_Mixture
     Model_Mass Proofs_Mass Proofs_MassGrid Model_Spin Proofs_Spin Model_Cosmology Proofs_Cosmology Props_Cosmology Model_Redshift Proofs_Redshift Props_Redshift
     Model_Hybrid Spec_Hybrid.
Import ListNotations.
Open Scope R_scope.

Section Blocks.
Context {K : Type}.
Variable draw : K -> list X.
Variable validate : bool.

(** a distribution that is not a joint, with density [v] at the point [p] *)
Definition has_density (d : dist K) (p : list X) (v : R) : Prop :=
  (exists s lp su dr, d = Leaf s lp su dr) /\ length p = event_size d
  /\ (in_support d p = true -> fin_or_ninf (log_prob d p) /\ wexp (log_prob d p) = v)
  /\ (in_support d p = false -> v = 0 /\ (validate = true -> log_prob d p = NInf)).

Lemma blocks_sum (l : list (dist K * list X * R)) :
  List.Forall (fun t => has_density (fst (fst t)) (snd (fst t)) (snd t)) l ->
  let ds := map (fun t => fst (fst t)) l in let ps := map (fun t => snd (fst t)) l in
  cut_as ds ps
  /\ (all_supports ds ps = true -> fin_or_ninf (sum_log_probs ds ps) /\ wexp (sum_log_probs ds ps) = rprod (map snd l))
  /\ (all_supports ds ps = false -> rprod (map snd l) = 0).
Proof.
  induction 1 as [|[[d p] v] l (HL & HN & HI & HO) H IH]; cbn [map fst snd rprod].
  - split; [constructor|]. split; [intros _|discriminate]. split; [exact I|]. cbn. apply exp_0.
  - destruct IH as (C & I1 & I2). split; [now constructor|].
    unfold all_supports, sum_log_probs. cbn [combine map forallb fold_right fst snd].
    fold (sum_log_probs (map (fun t => fst (fst t)) l) (map (fun t => snd (fst t)) l)).
    fold (all_supports (map (fun t => fst (fst t)) l) (map (fun t => snd (fst t)) l)).
    rewrite andb_true_iff, andb_false_iff. split.
    + intros [S1 S2]. destruct (HI S1) as [F1 W1]. destruct (I1 S2) as [F2 W2].
      cbn [fst snd] in F1, W1. split; [now apply fin_or_ninf_add|]. rewrite wexp_xadd by auto. now rewrite W1, W2.
    + intros [S|S]; [destruct (HO S) as [E _]; cbn [snd] in E; rewrite E; ring|rewrite I2 by auto; ring].
Qed.

Lemma mixture_of_blocks r (l : list (dist K * list X * R)) : l <> [] ->
  List.Forall (fun t => has_density (fst (fst t)) (snd (fst t)) (snd t)) l ->
  wexp (mixture_log_prob true (mixture_of validate r (joined (map (fun t => fst (fst t)) l))) (concat (map (fun t => snd (fst t)) l)))
  = exp r * rprod (map snd l).
Proof.
  intros Hne H.
  assert (P : 0 <= rprod (map snd l)).
  { clear Hne. induction H as [|[[d p] v] l (HL & HN & HI & HO) H IH]; cbn [map rprod]; [lra|].
    apply Rmult_le_pos; [|exact IH]. cbn [fst snd] in *. destruct (in_support d p); [destruct (HI eq_refl) as [_ <-]; apply wexp_nonneg|].
    destruct (HO eq_refl) as [-> _]. lra. }
  set (v := concat (map (fun t => snd (fst t)) l)). set (d := joined (map (fun t => fst (fst t)) l)).
  assert (G : (in_support d v = true -> fin_or_ninf (block_log_prob validate d v) /\ wexp (block_log_prob validate d v) = rprod (map snd l))
           /\ (in_support d v = false -> rprod (map snd l) = 0 /\ (validate = true -> block_log_prob validate d v = NInf))).
  { destruct l as [|[[d1 p1] v1] [|[[d2 p2] v2] l]]; [congruence| |].
    - unfold d, v. cbn [map joined concat fst snd rprod] in *. rewrite app_nil_r, Rmult_1_r.
      inversion H as [|? ? (HL & HN & HI & HO)]; subst. cbn [fst snd] in *.
      destruct HL as (s & lp & su & dr & ->). cbn [block_log_prob]. tauto.
    - destruct (blocks_sum _ H) as (C & I1 & I2). fold v in I1, I2.
      set (ds := map (fun t : dist K * list X * R => fst (fst t)) ((d1, p1, v1) :: (d2, p2, v2) :: l)) in *.
      set (ps := map (fun t : dist K * list X * R => snd (fst t)) ((d1, p1, v1) :: (d2, p2, v2) :: l)) in *.
      assert (E : d = Joint ds None) by reflexivity. rewrite E. unfold block_log_prob, validated.
      assert (ES : in_support (Joint ds None) v = all_supports ds ps) by now apply joint_support_spec.
      assert (EL : log_prob (Joint ds None) v = sum_log_probs ds ps) by now apply joint_log_prob_spec.
      rewrite ES, EL. split; intros S; rewrite S.
      + destruct (I1 S). split; destruct validate; auto.
      + split; [auto|]. now intros ->. }
  destruct G as [G1 G2]. unfold mixture_of. rewrite mixture_spec.
  - cbn [map rsum]. unfold weighted_density. cbn [c_supp c_log_scale c_lp wexp]. rewrite Rplus_0_r.
    destruct (in_support d v).
    + destruct (G1 eq_refl) as [_ W]. rewrite W. pose proof (exp_pos r).
      destruct (Rle_lt_or_eq_dec _ _ P) as [L|L].
      * rewrite log_of_pos by now apply Rmult_lt_0_compat. cbn [wexp]. apply exp_ln. now apply Rmult_lt_0_compat.
      * rewrite <- L, Rmult_0_r, log_of_zero. reflexivity.
    + destruct (G2 eq_refl) as [-> _]. rewrite log_of_zero, Rmult_0_r. reflexivity.
  - constructor; [|constructor]. unfold good_component. cbn [c_log_scale c_supp c_lp c_validate]. split; [exact I|]. split.
    + intros S. now apply G1.
    + intros V S. now apply G2.
Qed.

(** a joint distribution with a validation setting of its own *)
Lemma joint_mixture vd r (l : list (dist K * list X * R)) : List.Forall (fun t => has_density (fst (fst t)) (snd (fst t)) (snd t)) l ->
  let d := Joint (map (fun t => fst (fst t)) l) None in
  wexp (mixture_log_prob true [mkcomp (Fin r) (fun v => validated vd (in_support d v) (log_prob d v)) (in_support d) vd]
          (concat (map (fun t => snd (fst t)) l)))
  = exp r * rprod (map snd l).
Proof.
  intros H d. destruct (blocks_sum _ H) as (C & I1 & I2).
  assert (P : 0 <= rprod (map snd l)).
  { clear -H. induction H as [|[[d p] v] l (HL & HN & HI & HO) H IH]; cbn [map rprod]; [lra|].
    apply Rmult_le_pos; [|exact IH]. cbn [fst snd] in *. destruct (in_support d p); [destruct (HI eq_refl) as [_ <-]; apply wexp_nonneg|].
    destruct (HO eq_refl) as [-> _]. lra. }
  set (ds := map (fun t : dist K * list X * R => fst (fst t)) l) in *.
  set (ps := map (fun t : dist K * list X * R => snd (fst t)) l) in *.
  assert (ES : in_support d (concat ps) = all_supports ds ps) by now apply joint_support_spec.
  assert (EL : log_prob d (concat ps) = sum_log_probs ds ps) by now apply joint_log_prob_spec.
  rewrite mixture_spec.
  - cbn [map rsum]. unfold weighted_density. cbn [c_supp c_log_scale c_lp wexp]. rewrite ES, EL, Rplus_0_r. unfold validated.
    destruct (all_supports ds ps).
    + destruct (I1 eq_refl) as [_ W]. replace (if vd then sum_log_probs ds ps else sum_log_probs ds ps) with (sum_log_probs ds ps) by now destruct vd.
      rewrite W. pose proof (exp_pos r).
      destruct (Rle_lt_or_eq_dec _ _ P) as [L|L].
      * rewrite log_of_pos by now apply Rmult_lt_0_compat. cbn [wexp]. apply exp_ln. now apply Rmult_lt_0_compat.
      * rewrite <- L, Rmult_0_r, log_of_zero. reflexivity.
    + rewrite I2 by reflexivity. rewrite log_of_zero, Rmult_0_r. reflexivity.
  - constructor; [|constructor]. unfold good_component. cbn [c_log_scale c_supp c_lp c_validate]. split; [exact I|].
    rewrite ES, EL. split.
    + intros S. rewrite S. apply validated_fin. now apply I1.
    + intros -> S. now rewrite S.
Qed.

(** leaves *)
Lemma leaf1_density lp su x v : (su x = true -> fin_or_ninf (lp x) /\ wexp (lp x) = v) -> (su x = false -> v = 0) ->
  has_density (leaf1 draw validate lp su) [Fin x] v.
Proof.
  intros H1 H2. unfold leaf1, has_density. split; [repeat eexists|]. split; [reflexivity|]. cbn [in_support log_prob holds1 on1].
  unfold validated. split; intros S; rewrite S.
  - destruct (H1 S). destruct validate; auto.
  - split; [auto|]. now intros ->.
Qed.
Lemma leaf2_density lp su x y v : (su x y = true -> fin_or_ninf (lp x y) /\ wexp (lp x y) = v) -> (su x y = false -> v = 0) ->
  has_density (leaf2 draw validate lp su) [Fin x; Fin y] v.
Proof.
  intros H1 H2. unfold leaf2, has_density. split; [repeat eexists|]. split; [reflexivity|]. cbn [in_support log_prob holds2 on2].
  unfold validated. split; intros S; rewrite S.
  - destruct (H1 S). destruct validate; auto.
  - split; [auto|]. now intros ->.
Qed.
Lemma between_iff lo hi x : between lo hi x = true <-> lo <= x <= hi.
Proof. unfold between. destruct (Rle_dec lo x), (Rle_dec x hi); cbn; split; intros; try lra; discriminate. Qed.
Lemma between_within lo hi x v : within lo hi x v = if between lo hi x then v else 0.
Proof. unfold within, between. destruct (Rle_dec lo x), (Rle_dec x hi); reflexivity. Qed.
Lemma within_in lo hi x v : lo <= x <= hi -> within lo hi x v = v.
Proof. intros H. unfold within. destruct (Rle_dec lo x); [|lra]. destruct (Rle_dec x hi); lra. Qed.
Lemma within_out lo hi x v : x < lo \/ hi < x -> within lo hi x v = 0.
Proof. intros H. unfold within. destruct (Rle_dec lo x); [|lra]. destruct (Rle_dec x hi); lra. Qed.
Lemma out_cases lo hi x : between lo hi x = false -> x < lo \/ hi < x.
Proof. unfold between. destruct (Rle_dec lo x), (Rle_dec x hi); cbn; intros; try discriminate; lra. Qed.

Lemma tn_spec x loc scale lo hi : 0 < scale -> lo < hi ->
  fin_or_ninf (truncated_normal_log_prob x loc scale lo hi)
  /\ wexp (truncated_normal_log_prob x loc scale lo hi) = truncated_normal loc scale lo hi x.
Proof.
  intros Hs Hl. split; [now apply tn_agree|]. unfold truncated_normal. rewrite between_within.
  destruct (between lo hi x) eqn:E.
  - apply between_iff in E. now apply tn_value.
  - apply tn_outside. now apply out_cases.
Qed.
Lemma tn_out x loc scale lo hi : between lo hi x = false -> truncated_normal loc scale lo hi x = 0.
Proof. intros E. unfold truncated_normal. now rewrite between_within, E. Qed.
Lemma uniform_spec x lo hi : lo < hi -> fin_or_ninf (uniform_log_prob x lo hi) /\ wexp (uniform_log_prob x lo hi) = uniform lo hi x.
Proof.
  intros H. split; [now apply uniform_fin|]. unfold uniform. rewrite between_within. destruct (between lo hi x) eqn:E.
  - apply between_iff in E. now apply uniform_value.
  - apply uniform_outside. now apply out_cases.
Qed.
Lemma tilt_spec zeta loc scale mn t1 t2 : 0 <= zeta <= 1 -> 0 < scale -> mn < 1 ->
  fin_or_ninf (minimum_tilt_extended zeta loc loc scale scale mn mn [t1; t2])
  /\ wexp (minimum_tilt_extended zeta loc loc scale scale mn mn [t1; t2]) = tilts zeta loc scale mn t1 t2.
Proof.
  intros Hz Hs Hm. unfold minimum_tilt_extended, nd_isotropic_and_truncated.
  set (cs := [mkcoord loc scale mn 1 mn 1; mkcoord loc scale mn 1 mn 1]).
  assert (HU : List.Forall (fun c => forall x, fin_or_ninf (coord_uniform c x)) cs).
  { constructor; [|constructor; [|constructor]]; intros x; apply uniform_fin; simpl; lra. }
  assert (HG : List.Forall (fun c => forall x, fin_or_ninf (coord_gauss c x)) cs).
  { constructor; [|constructor; [|constructor]]; intros x; apply tn_agree; simpl; lra. }
  destruct (mixture_two zeta _ _ Hz (proj1 (independent_fin _ cs [t1; t2] HU)) (proj1 (independent_fin _ cs [t1; t2] HG))) as [F W].
  split; [exact F|]. rewrite W.
  rewrite (proj2 (independent_fin _ cs [t1; t2] HU) eq_refl), (proj2 (independent_fin _ cs [t1; t2] HG) eq_refl).
  cbn [cs map combine fst snd rprod]. unfold coord_uniform, coord_gauss. cbn [c_loc c_scale c_ilow c_ihigh c_glow c_ghigh].
  rewrite !(proj2 (uniform_spec _ mn 1 Hm)), !(proj2 (tn_spec _ loc scale mn 1 Hs Hm)). unfold tilts. ring.
Qed.
Lemma tilts_out zeta loc scale mn t1 t2 : between mn 1 t1 && between mn 1 t2 = false -> tilts zeta loc scale mn t1 t2 = 0.
Proof.
  intros E. unfold tilts, uniform, truncated_normal. rewrite !between_within.
  apply andb_false_iff in E as [E|E]; rewrite E; ring.
Qed.
Lemma beta_spec betaln a b x : 0 < x < 1 ->
  fin_or_ninf (beta_log_prob betaln (Fin a, Fin b) x)
  /\ wexp (beta_log_prob betaln (Fin a, Fin b) x) = beta_density a b (exp (betaln a b)) x.
Proof.
  intros Hx. unfold beta_log_prob. rewrite !xln_pos by lra. rewrite !xmul_fin. unfold xsub. cbn [xadd xopp]. split; [exact I|].
  unfold beta_density. rewrite within_in by lra. cbn [wexp]. rewrite !exp_plus, exp_Ropp. reflexivity.
Qed.
Lemma half_spec scale x : 0 < scale -> fin_or_ninf (half_normal_log_prob scale x)
  /\ wexp (half_normal_log_prob scale x) = 2 * norm_pdf x 0 scale.
Proof.
  intros H. assert (0 < norm_pdf x 0 scale) by (apply Rdiv_lt_0_compat; [apply phi_pos|lra]).
  unfold half_normal_log_prob. rewrite !xln_pos by lra. split; [exact I|]. cbn [xadd wexp]. rewrite exp_plus, !exp_ln by lra. ring.
Qed.

(** masses *)
Lemma on_masses_iff mmin mmax m1 q v : 0 < mmin -> on_masses mmin mmax m1 q v
  = if mass_ratio_mass_sandwich (Fin mmin) (Fin mmax) (Fin m1) (Fin q) then v else 0.
Proof.
  intros H. destruct (mass_ratio_mass_sandwich _ _ _ _) eqn:E.
  - unfold mass_ratio_mass_sandwich in E. rewrite xmul_fin in E. rewrite !andb_true_iff, xltb_fin, !xleb_fin in E.
    unfold on_masses. destruct (Rlt_dec 0 m1); [|lra]. rewrite !within_in by lra. reflexivity.
  - unfold on_masses. destruct (Rlt_dec 0 m1); [|reflexivity]. unfold within.
    destruct (Rle_dec mmin (m1 * q)); [|reflexivity]. destruct (Rle_dec (m1 * q) m1); [|reflexivity].
    destruct (Rle_dec mmin m1); [|reflexivity]. destruct (Rle_dec m1 mmax); [|reflexivity]. exfalso.
    assert (T : mass_ratio_mass_sandwich (Fin mmin) (Fin mmax) (Fin m1) (Fin q) = true).
    { unfold mass_ratio_mass_sandwich. rewrite xmul_fin. rewrite !andb_true_iff, xltb_fin, !xleb_fin. lra. }
    congruence.
Qed.
Lemma sandwich_pos mmin mmax m1 q : mass_ratio_mass_sandwich (Fin mmin) (Fin mmax) (Fin m1) (Fin q) = true ->
  0 < mmin <= m1 /\ m1 <= mmax /\ 0 < q <= 1.
Proof.
  unfold mass_ratio_mass_sandwich. rewrite xmul_fin, !andb_true_iff, xltb_fin, !xleb_fin. intros [[[A B] C] D].
  assert (0 < m1) by lra. split; [lra|]. split; [lra|]. nra.
Qed.
Lemma log_Zq_fin Z : exists r, (if Rle_dec Z 0 then Fin 0 else xln (Fin Z)) = Fin r.
Proof. destruct (Rle_dec Z 0); [eauto|]. rewrite xln_pos by lra. eauto. Qed.
Lemma fin_sub a r : fin_or_ninf a -> fin_or_ninf (xsub a (Fin r)).
Proof. destruct a; cbn; auto. Qed.
Lemma stc_fin alpha beta delta lambda loc mmax mmin scale m1 q :
  0 < mmin -> 0 < delta -> mmin + delta < mmax -> 0 <= lambda <= 1 -> 0 < scale ->
  mass_ratio_mass_sandwich (Fin mmin) (Fin mmax) (Fin m1) (Fin q) = true ->
  fin_or_ninf (stc_log_prob alpha beta delta lambda loc mmax mmin scale validate m1 q).
Proof.
  intros H1 H2 H3 H4 H5 S. destruct (sandwich_pos _ _ _ _ S) as (A & B & C). unfold stc_log_prob. rewrite S.
  replace (validated validate true) with (fun x : X => x) by (destruct validate; reflexivity).
  assert (Hm : 0 < mmin < mmax) by lra.
  destruct (stc_rest_integral alpha delta lambda loc mmax mmin scale Hm H2 H4 H5 H3) as (A' & _ & PA & EA).
  assert (EZ : exists r, stc_logZ alpha delta lambda loc mmax mmin scale = Fin r).
  { unfold stc_logZ. rewrite EA. cbn [xadd]. rewrite xln_pos; [eauto|].
    assert (0 <= stc_numerical alpha delta lambda loc mmax mmin scale); [|lra].
    apply (trapezoid_nonneg (stc_edge_grid delta mmin) (fun m => wexp (stc_m1_unnorm alpha delta lambda loc mmax mmin scale m))).
    - apply linspace_inc; [lra|lia].
    - intros; apply wexp_nonneg. }
  destruct EZ as [r ->]. destruct (log_Zq_fin (interp_lr m1 (stc_m1s mmax mmin) (map (stc_Zq beta delta mmax mmin validate) (stc_m1s mmax mmin)) 1 1)) as [r' ->].
  apply fin_or_ninf_add; apply fin_sub.
  - apply stc_m1_fin; auto. lra.
  - apply stc_q_fin; auto. lra.
Qed.
Lemma wexp_sub a r : fin_or_ninf a -> wexp (xsub a (Fin r)) = wexp a * exp (- r).
Proof. destruct a; cbn; intros []; [apply exp_plus|ring]. Qed.
Lemma stc_positive alpha beta delta lambda loc mmax mmin scale m1 :
  0 < mmin -> 0 < delta -> mmin + delta < mmax -> 0 <= lambda <= 1 -> 0 < scale -> mmin < m1 <= mmax ->
  0 < wexp (stc_log_prob alpha beta delta lambda loc mmax mmin scale validate m1 1).
Proof.
  intros H1 H2 H3 H4 H5 Hm1. assert (Hm : 0 < mmin < mmax) by lra.
  unfold stc_log_prob. rewrite sandwich_q1 by lra.
  replace (validated validate true) with (fun x : X => x) by (destruct validate; reflexivity).
  destruct (stc_rest_integral alpha delta lambda loc mmax mmin scale Hm H2 H4 H5 H3) as (A' & _ & PA & EA).
  assert (EZ : exists r, stc_logZ alpha delta lambda loc mmax mmin scale = Fin r).
  { unfold stc_logZ. rewrite EA. cbn [xadd]. rewrite xln_pos; [eauto|].
    assert (0 <= stc_numerical alpha delta lambda loc mmax mmin scale); [|lra].
    apply (trapezoid_nonneg (stc_edge_grid delta mmin) (fun m => wexp (stc_m1_unnorm alpha delta lambda loc mmax mmin scale m))).
    - apply linspace_inc; [lra|lia].
    - intros; apply wexp_nonneg. }
  destruct EZ as [r ->]. destruct (log_Zq_fin (interp_lr m1 (stc_m1s mmax mmin) (map (stc_Zq beta delta mmax mmin validate) (stc_m1s mmax mmin)) 1 1)) as [r' ->].
  assert (F1 : fin_or_ninf (stc_m1_unnorm alpha delta lambda loc mmax mmin scale m1)) by (apply stc_m1_fin; auto; lra).
  assert (F2 : fin_or_ninf (stc_q_unnorm beta delta mmax mmin validate m1 1)) by (apply stc_q_fin; auto; lra).
  rewrite wexp_xadd by now apply fin_sub. rewrite !wexp_sub by auto.
  apply Rmult_lt_0_compat; apply Rmult_lt_0_compat; try apply exp_pos.
  - rewrite stc_m1_wexp by (auto; lra). apply Rmult_lt_0_compat; [apply stc_mix_pos; auto; lra|]. apply taper_pos, scaled_pos; lra.
  - apply stc_q1_pos; auto; lra.
Qed.
Lemma b2p_fin a1 a2 beta loc1 loc2 scale1 scale2 d1 d2 l0 l1 m1min m2min mmax mb m1 q :
  0 < m1min < mb -> mb < mmax -> 0 < m2min < mmax -> 0 < d1 -> 0 < d2 -> 0 <= l0 -> 0 <= l1 -> l0 + l1 <= 1 ->
  0 < scale1 -> 0 < scale2 -> mass_ratio_mass_sandwich (Fin m2min) (Fin mmax) (Fin m1) (Fin q) = true ->
  fin_or_ninf (b2p_log_prob a1 a2 beta loc1 loc2 scale1 scale2 d1 d2 l0 l1 m1min m2min mmax mb validate m1 q).
Proof.
  intros H1 H2 H3 Hd1 Hd2 Hl0 Hl1 Hl Hs1 Hs2 S. destruct (sandwich_pos _ _ _ _ S) as (A & B & C). unfold b2p_log_prob. rewrite S.
  replace (validated validate true) with (fun x : X => x) by (destruct validate; reflexivity).
  rewrite b2p_logZ_eq. pose proof (b2p_Z_pos a1 a2 loc1 loc2 scale1 scale2 d1 l0 l1 m1min mmax mb H1 H2 Hd1 Hl0 Hl1 Hl Hs1 Hs2) as P.
  rewrite xln_pos by exact P.
  destruct (log_Zq_fin (interp_lr m1 (b2p_m1s m2min mmax) (map (b2p_Zq beta d2 m2min mmax validate) (b2p_m1s m2min mmax)) 1 1)) as [r' ->].
  apply fin_or_ninf_add; apply fin_sub.
  - destruct (Rlt_dec m1 m1min).
    + rewrite b2p_m1_edge by lra. exact I.
    + apply b2p_m1_fin; lra.
  - apply b2p_q_fin; auto. lra.
Qed.
End Blocks.

(** more blocks *)
Section Blocks2.
Context {K : Type}.
Variable draw : K -> list X.
Variable validate : bool.
Lemma pair_density lp su x y f : (forall z, su z = true -> z = x \/ z = y -> fin_or_ninf (lp z) /\ wexp (lp z) = f z) ->
  (forall z, su z = false -> f z = 0) -> has_density validate (pair_leaf draw validate lp su) [Fin x; Fin y] (f x * f y).
Proof.
  intros H1 H2. unfold pair_leaf. apply leaf2_density.
  - rewrite andb_true_iff. intros [A B]. destruct (H1 x A) as [F1 W1]; [auto|]. destruct (H1 y B) as [F2 W2]; [auto|].
    split; [now apply fin_or_ninf_add|]. rewrite wexp_xadd by auto. now rewrite W1, W2.
  - rewrite andb_false_iff. intros [A|A]; rewrite (H2 _ A); ring.
Qed.
Lemma redshift_density c Ho Om Or Ol max_z dz z_max kappa z : 0 < c -> 0 < Ho -> 0 < max_z -> 0 < dz -> expanding Om Or Ol ->
  has_density validate (redshift_leaf draw validate c Ho Om Or Ol max_z dz z_max kappa) [Fin z]
    (within 0 z_max z (wexp (logdVcdz c Ho Om Or Ol z (z_to_Dc c Ho Om Or Ol max_z dz z)) / (1 + z) * Rpower (1 + z) kappa)).
Proof.
  intros H1 H2 H3 H4 H5. unfold redshift_leaf. rewrite between_within. apply leaf1_density; intros S; rewrite S; [|reflexivity].
  apply between_iff in S. split.
  - unfold redshift_log_prob. apply validated_fin. apply ls_fin; auto; [|lra].
    intros z0 Hz0. exact (evolution_fin _ _ (ev_powerlaw kappa) z0 Hz0).
  - apply (C71_density c Ho Om Or Ol max_z dz z_max _ _ validate z H1 H2 H3 H4 H5 (ev_powerlaw kappa)). lra.
Qed.
End Blocks2.

Lemma gets_some ps : forall names l, gets ps names = Some l -> l = map (par ps) names.
Proof.
  unfold gets. induction names as [|n names IH]; intros l H; cbn [map_opt] in H.
  - now injection H as <-.
  - destruct (dget ps n) as [r|] eqn:E; [|discriminate]. destruct (map_opt (dget ps) names) as [l'|] eqn:E'; [|discriminate].
    injection H as <-. cbn [map]. unfold par at 1. rewrite E. now rewrite (IH l' eq_refl).
Qed.
Lemma gets_has ps : forall names, has ps names -> gets ps names = Some (map (par ps) names).
Proof.
  unfold gets, has. induction names as [|n names IH]; intros H; [reflexivity|]. cbn [map_opt map].
  destruct (H n (or_introl eq_refl)) as [r E]. rewrite E. rewrite IH by (intros; apply H; now right). unfold par at 2. now rewrite E.
Qed.
Lemma gets_none ps : forall names, ~ has ps names -> gets ps names = None.
Proof.
  intros names H. destruct (gets ps names) as [l|] eqn:E; [|reflexivity]. exfalso. apply H. clear H. revert l E.
  unfold gets, has. induction names as [|n names IH]; intros l E m Hm; [easy|]. cbn [map_opt] in E.
  destruct (dget ps n) as [r|] eqn:D; [|discriminate]. destruct (map_opt (dget ps) names) as [l'|] eqn:E'; [|discriminate].
  destruct Hm as [<-|Hm]; [eauto|]. exact (IH l' eq_refl m Hm).
Qed.
Lemma has_dec ps names : has ps names \/ ~ has ps names.
Proof.
  induction names as [|n names [IH|IH]].
  - left. intros n [].
  - destruct (dget ps n) as [r|] eqn:E.
    + left. intros m [<-|Hm]; eauto.
    + right. intros H. destruct (H n (or_introl eq_refl)) as [r E']. congruence.
  - right. intros H. apply IH. intros m Hm. apply H. now right.
Qed.

Lemma rprod_app : forall a b, rprod (a ++ b) = rprod a * rprod b.
Proof. induction a as [|x a IH]; intros b; cbn [app rprod]; [ring|rewrite IH; ring]. Qed.
(** blocks whose densities multiply to [v] at a point *)
Section Factors.
Context {K : Type}.
Variable validate : bool.
Definition factor (ds : list (dist K)) (pts : list X) (v : R) : Prop :=
  exists l : list (dist K * list X * R), ds = map (fun t => fst (fst t)) l /\ concat (map (fun t => snd (fst t)) l) = pts
    /\ List.Forall (fun t => has_density validate (fst (fst t)) (snd (fst t)) (snd t)) l /\ rprod (map snd l) = v.
Lemma factor_one d p v : has_density validate d p v -> factor [d] p v.
Proof.
  intros H. exists [(d, p, v)]. cbn [map fst snd concat rprod]. rewrite app_nil_r, Rmult_1_r.
  repeat split; auto.
Qed.
Lemma factor_app a b p p' v v' : factor a p v -> factor b p' v' -> factor (a ++ b) (p ++ p') (v * v').
Proof.
  intros (l & -> & <- & F & <-) (l' & -> & <- & F' & <-). exists (l ++ l').
  rewrite !map_app, concat_app, rprod_app. repeat split; auto. now apply Forall_app.
Qed.
Lemma factor_block (u : bool) (o : option (dist K)) pts v :
  (u = true -> exists d, o = Some d /\ has_density validate d (map Fin pts) v) ->
  exists ds, block u o = Some ds /\ factor ds (map Fin (if u then pts else [])) (when u v).
Proof.
  intros H. destruct u; cbn [block when].
  - destruct (H eq_refl) as (d & -> & D). exists [d]. split; [reflexivity|now apply factor_one].
  - exists []. split; [reflexivity|]. exists []. repeat split; auto.
Qed.
Lemma factor_mixture r ds pts v : ds <> [] -> factor ds pts v ->
  wexp (mixture_log_prob true (mixture_of validate r (joined ds)) pts) = exp r * v.
Proof.
  intros Hne (l & -> & <- & F & <-). apply mixture_of_blocks; auto. now destruct l.
Qed.
End Factors.

(** integrals *)
Lemma is_RInt_scal1 f a b k : is_RInt f a b 1 -> is_RInt (fun x => k * f x) a b k.
Proof. intros H. eapply is_RInt_scal_R; [exact H|ring]. Qed.
Lemma uniform_one lo hi : lo < hi -> is_RInt (uniform lo hi) lo hi 1.
Proof. intros H. apply (is_RInt_ext_R (fun x => wexp (uniform_log_prob x lo hi))); [lra| |now apply uniform_integral].
  intros x _. now apply uniform_spec. Qed.
Lemma tn_one loc scale lo hi : 0 < scale -> lo < hi -> is_RInt (truncated_normal loc scale lo hi) lo hi 1.
Proof. intros Hs H. apply (is_RInt_ext_R (fun x => wexp (truncated_normal_log_prob x loc scale lo hi))); [lra| |now apply tn_integral].
  intros x _. now apply tn_spec. Qed.
Lemma beta_one a b B : B <> 0 -> is_RInt (fun x => Rpower x (a - 1) * Rpower (1 - x) (b - 1)) 0 1 B ->
  is_RInt (beta_density a b B) 0 1 1.
Proof.
  intros HB H. apply (is_RInt_ext_R (fun x => / B * (Rpower x (a - 1) * Rpower (1 - x) (b - 1)))); [lra| |].
  - intros x Hx. unfold beta_density. rewrite within_in by lra. unfold Rdiv. ring.
  - eapply is_RInt_scal_R; [exact H|]. now field.
Qed.
Lemma tilts_second zeta loc scale mn t1 : 0 < scale -> mn < 1 ->
  is_RInt (fun t2 => tilts zeta loc scale mn t1 t2) mn 1 ((1 - zeta) * uniform mn 1 t1 + zeta * truncated_normal loc scale mn 1 t1).
Proof.
  intros Hs Hm. unfold tilts.
  apply (is_RInt_plus (V := R_CompleteNormedModule) (fun t2 => (1 - zeta) * (uniform mn 1 t1 * uniform mn 1 t2))
           (fun t2 => zeta * (truncated_normal loc scale mn 1 t1 * truncated_normal loc scale mn 1 t2))).
  - apply (is_RInt_ext_R (fun t2 => (1 - zeta) * uniform mn 1 t1 * uniform mn 1 t2)); [lra|intros; ring|].
    now apply is_RInt_scal1, uniform_one.
  - apply (is_RInt_ext_R (fun t2 => zeta * truncated_normal loc scale mn 1 t1 * truncated_normal loc scale mn 1 t2)); [lra|intros; ring|].
    now apply is_RInt_scal1, tn_one.
Qed.
Lemma tilts_first zeta loc scale mn : 0 < scale -> mn < 1 ->
  is_RInt (fun t1 => (1 - zeta) * uniform mn 1 t1 + zeta * truncated_normal loc scale mn 1 t1) mn 1 1.
Proof.
  intros Hs Hm.
  pose proof (is_RInt_plus (V := R_CompleteNormedModule) _ _ _ _ _ _ (is_RInt_scal1 _ _ _ (1 - zeta) (uniform_one mn 1 Hm))
                (is_RInt_scal1 _ _ _ zeta (tn_one loc scale mn 1 Hs Hm))) as H.
  match type of H with is_RInt _ _ _ ?v => assert (E : v = 1) by (cbn; ring); rewrite E in H end. exact H.
Qed.

(** parameters that are given *)
Lemma has_app ps a b : has ps (a ++ b) <-> has ps a /\ has ps b.
Proof. unfold has. setoid_rewrite in_app_iff. firstorder. Qed.
Lemma has_cons ps n b : has ps (n :: b) <-> (exists r, dget ps n = Some r) /\ has ps b.
Proof. unfold has. cbn [In]. split; [firstorder|]. intros [A B] m [<-|H]; auto. Qed.
Lemma dget_has ps n : has ps [n] <-> dget ps n <> None.
Proof.
  unfold has. cbn. split.
  - intros H. destruct (H n (or_introl eq_refl)) as [r ->]. discriminate.
  - intros H m [<-|[]]. destruct (dget ps n); eauto. congruence.
Qed.

Lemma and_then_iff {A B} ps (o : option A) names (f : A -> option B) P : (o <> None <-> has ps names) -> (forall d, f d <> None <-> P) ->
  (and_then o f <> None <-> has ps names /\ P).
Proof.
  intros H1 H2. destruct o as [d|]; cbn [and_then].
  - rewrite H2. split; [|tauto]. intros HP. split; [|exact HP]. apply H1. discriminate.
  - split; [congruence|]. intros [H _]. now apply H1 in H.
Qed.
Lemma block_iff {K} ps (u : bool) (o : option (dist K)) names : (o <> None <-> has ps names) -> (block u o <> None <-> has ps (if u then names else [])).
Proof.
  intros H. destruct u; cbn [block].
  - rewrite <- H. destruct o; split; congruence.
  - split; [|discriminate]. intros _ n [].
Qed.
