(** The functions g, G and F of the joint spin prior are antiderivatives; the four terms add up to the density. *)
From Coq Require Import Reals Lra Lia List Bool.
From Coquelicot Require Import Coquelicot.
From Verif Require Import Model_X Model_Transform Model_Population Spec_ChiEff Proofs_ChiEff Model_JointSpin Spec_JointSpin Proofs_Clog.
Import ListNotations.
Open Scope R_scope.

Lemma isv_true x v : x = v -> isv x v = true.
Proof. intros ->. unfold isv. destruct (Req_EM_T v v); congruence. Qed.
Lemma isv_false x v : x <> v -> isv x v = false.
Proof. intros H. unfold isv. destruct (Req_EM_T x v); congruence. Qed.
Lemma d_cont (f : R -> R) t l : is_derive f t l -> continuous f t.
Proof. intros H. apply (ex_derive_continuous (V := R_NormedModule)). now exists l. Qed.

Section Antiderivative.
Variable Li2 : C -> C.
Hypothesis HLi : complex_dilogarithm Li2.

Lemma pd_Li2 w t l : path_derive w t l -> w t <> RtoC 0 -> off_slit (Cminus (RtoC 1) (w t)) ->
  path_derive (fun s => Li2 (w s)) t (Cmult (Cdiv (Copp (clog (Cminus (RtoC 1) (w t)))) (w t)) l).
Proof.
  intros P N O. destruct HLi as (_ & L & _). apply L; [exact P|exact N|]. intros [A B]. unfold off_slit in O.
  cbn [fst snd Cminus Cplus Copp RtoC] in O. lra.
Qed.
Lemma pd_id_minus a b x : path_derive (fun s => (s - a, b)) x (1, 0).
Proof.
  apply pd_pair; [|apply d_const].
  evar_last. { exact (d_minus _ _ x _ _ (is_derive_id x) (d_const a x)). } unfold one; cbn. ring.
Qed.
Lemma pd_minus_id a b x : path_derive (fun s => (a - s, b)) x (-1, 0).
Proof.
  apply pd_pair; [|apply d_const].
  evar_last. { exact (d_minus _ _ x _ _ (d_const a x) (is_derive_id x)). } unfold one; cbn. ring.
Qed.
Lemma pd_id b x : path_derive (fun s => (s, b)) x (1, 0).
Proof. apply pd_pair; [exact (is_derive_id x)|apply d_const]. Qed.

(** the three branches of g *)
Definition g1 (x alpha beta : R) : C :=
  Cplus (Cmult (clog (x, - beta)) (clog (Cdiv (alpha - x, 1) (alpha, 1 - beta))))
        (Li2 (Cdiv (x, - beta) (alpha, 1 - beta))).
Definition g2 (x alpha beta : R) : C :=
  Cplus (Cmult (RtoC (1 / 2)) (Cmult (clog (x - alpha, -1)) (clog (x - alpha, -1))))
        (Li2 (Cdiv (- alpha, 0) (x - alpha, -1))).
Definition g3 (x alpha beta : R) : C :=
  Cminus (Cmult (clog (alpha, 1 - beta)) (clog (alpha - x, 1)))
         (Li2 (Cdiv (alpha - x, 1) (alpha, 1 - beta))).
(** their derivative *)
Definition dg (x alpha beta : R) : C := Cdiv (clog (x, - beta)) (x - alpha, -1).

Lemma nz_im x y : y <> 0 -> (x, y) <> RtoC 0.
Proof. intros H E. apply H. now apply (f_equal snd) in E. Qed.
Lemma nz_re x y : x <> 0 -> (x, y) <> RtoC 0.
Proof. intros H E. apply H. now apply (f_equal fst) in E. Qed.
Lemma RC0 : (0, 0) = RtoC 0. Proof. reflexivity. Qed.
Lemma RC1 : (1, 0) = RtoC 1. Proof. reflexivity. Qed.
Lemma RCm1 : (-1, 0) = Copp (RtoC 1). Proof. apply Ceq; cbn; ring. Qed.
Lemma Cdiv_nz z d : z <> RtoC 0 -> d <> RtoC 0 -> Cdiv z d <> RtoC 0.
Proof.
  intros Z D E. apply Z. replace z with (Cmult (Cdiv z d) d) by (field; exact D). rewrite E. ring.
Qed.

Lemma g1_derive x alpha beta : Rabs beta < 1 -> beta <> 0 \/ 0 < x ->
  path_derive (fun s => g1 s alpha beta) x (dg x alpha beta).
Proof.
  intros B O. apply Rabs_def2 in B. unfold g1, dg.
  set (D := (alpha, 1 - beta)). assert (ND : D <> RtoC 0) by (apply nz_im; lra).
  assert (NX : (x, - beta) <> RtoC 0) by (destruct O; [apply nz_im|apply nz_re]; lra).
  assert (NA : (alpha - x, 1) <> RtoC 0) by (apply nz_im; lra).
  assert (NA' : (x - alpha, -1) <> RtoC 0) by (apply nz_im; lra).
  assert (E1 : Cminus (RtoC 1) (Cdiv (x, - beta) D) = Cdiv (alpha - x, 1) D).
  { replace (alpha - x, 1) with (Cminus D (x, - beta)) by (apply Ceq; cbn; ring). field. exact ND. }
  assert (PW : path_derive (fun s => Cdiv (s, - beta) D) x (Cdiv (RtoC 1) D)).
  { pose proof (pd_div _ _ x _ _ (pd_id (- beta) x) (pd_const D x) ND) as P. rewrite RC1 in P.
    replace (Cdiv (RtoC 1) D) with (Cdiv (Cminus (RtoC 1) (Cmult (Cdiv (x, - beta) D) (RtoC 0))) D); [exact P|]. field. exact ND. }
  assert (PR : path_derive (fun s => Cdiv (alpha - s, 1) D) x (Copp (Cdiv (RtoC 1) D))).
  { pose proof (pd_div _ _ x _ _ (pd_minus_id alpha 1 x) (pd_const D x) ND) as P. rewrite RCm1 in P.
    replace (Copp (Cdiv (RtoC 1) D)) with (Cdiv (Cminus (Copp (RtoC 1)) (Cmult (Cdiv (alpha - x, 1) D) (RtoC 0))) D); [exact P|]. field. exact ND. }
  assert (OR : off_slit (Cdiv (alpha - x, 1) D)) by (apply div_upper_off_slit; unfold D; cbn [snd]; lra).
  assert (OX : off_slit (x, - beta)) by (unfold off_slit; cbn [fst snd]; destruct O; [right|left]; lra).
  pose proof (pd_plus _ _ x _ _ (pd_mult _ _ x _ _ (pd_log _ x _ (pd_id (- beta) x) OX) (pd_log _ x _ PR OR))
    (pd_Li2 _ x _ PW (Cdiv_nz _ _ NX ND) ltac:(cbv beta; rewrite E1; exact OR))) as P.
  cbv beta in P. rewrite E1, RC1 in P.
  match type of P with path_derive _ _ ?l => replace (Cdiv (clog (x, - beta)) (x - alpha, -1)) with l; [exact P|] end.
  replace (x - alpha, -1) with (Copp (alpha - x, 1)) by (apply Ceq; cbn; ring).
  assert (NO : Copp (alpha - x, 1) <> RtoC 0) by (apply nz_im; cbn; lra).
  set (L := clog (Cdiv (alpha - x, 1) D)). set (M := clog (x, - beta)). field.
  repeat (split; [assumption|]). assumption.
Qed.
Lemma g2_derive x alpha beta : beta = 1 ->
  path_derive (fun s => g2 s alpha beta) x (dg x alpha beta).
Proof.
  intros ->. unfold g2, dg.
  set (U := (x - alpha, -1)). assert (NU : U <> RtoC 0) by (apply nz_im; lra).
  assert (NX : (x, - (1)) <> RtoC 0) by (apply nz_im; lra).
  assert (E1 : Cminus (RtoC 1) (Cdiv (- alpha, 0) U) = Cdiv (x, - (1)) U).
  { replace (x, - (1)) with (Cminus U (- alpha, 0)) by (apply Ceq; cbn; ring). field. exact NU. }
  assert (PU : path_derive (fun s => (s - alpha, -1)) x (RtoC 1)) by (rewrite <- RC1; apply pd_id_minus).
  assert (OU : off_slit U) by (right; unfold U; cbn [snd]; lra).
  assert (PW : path_derive (fun s => Cdiv (- alpha, 0) (s - alpha, -1)) x (Copp (Cdiv (Cdiv (- alpha, 0) U) U))).
  { pose proof (pd_div _ _ x _ _ (pd_const (- alpha, 0) x) PU NU) as P. cbv beta in P. fold U in P.
    match type of P with path_derive _ _ ?l => replace (Copp (Cdiv (Cdiv (- alpha, 0) U) U)) with l; [exact P|] end. field. exact NU. }
  assert (PL : path_derive (fun s => Li2 (Cdiv (- alpha, 0) (s - alpha, -1))) x (Cdiv (clog (Cdiv (x, - (1)) U)) U)).
  { destruct (Req_dec alpha 0) as [->|NA].
    - replace (Cdiv (clog (Cdiv (x, - (1)) U)) U) with (RtoC 0).
      + assert (Z : forall s, Cdiv (- 0, 0) (s - 0, -1) = RtoC 0).
        { intros s. apply Ceq; unfold Cdiv, Cmult; cbn [fst snd RtoC]; ring. }
        apply (pd_ext (fun _ => Li2 (RtoC 0))); [intros s; now rewrite Z|apply pd_const].
      + assert (EU : Cdiv (x, - (1)) U = RtoC 1).
        { replace U with (x, - (1)) by (unfold U; apply Ceq; cbn; ring). field. exact NX. }
        rewrite EU. assert (L1 : clog (RtoC 1) = RtoC 0).
        { unfold clog. rewrite Cmod_1, ln_1. unfold RtoC. rewrite carg_right by lra.
          replace (0 / 1) with 0 by field. now rewrite atan_0. }
        rewrite L1. field. exact NU.
    - assert (NW : Cdiv (- alpha, 0) U <> RtoC 0) by (apply Cdiv_nz; [apply nz_re; lra|exact NU]).
      pose proof (pd_Li2 _ x _ PW NW ltac:(cbv beta; fold U; rewrite E1; apply div_lower_off_slit; unfold U; cbn [snd]; lra)) as P.
      cbv beta in P. fold U in P. rewrite E1 in P.
      match type of P with path_derive _ _ ?l => replace (Cdiv (clog (Cdiv (x, - (1)) U)) U) with l; [exact P|] end.
      set (W := Cdiv (- alpha, 0) U) in *. set (L := clog _). field. split; assumption. }
  pose proof (pd_plus _ _ x _ _ (pd_mult _ _ x _ _ (pd_const (RtoC (1 / 2)) x)
     (pd_mult _ _ x _ _ (pd_log _ x _ PU OU) (pd_log _ x _ PU OU))) PL) as P.
  cbv beta in P. fold U in P.
  match type of P with path_derive _ _ ?l => replace (Cdiv (clog (x, - (1))) U) with l; [exact P|] end.
  rewrite clog_div_lower by (unfold U; cbn [snd]; lra).
  set (M := clog (x, - (1))). set (L := clog U).
  assert (H2 : RtoC (1 / 2) = Cinv (Cplus (RtoC 1) (RtoC 1))).
  { apply Ceq; cbn; field. }
  rewrite H2. field. split; [exact NU|]. intros E. apply (f_equal fst) in E. cbn in E. lra.
Qed.
Lemma g3_derive x alpha beta : beta <= -1 \/ 1 < beta \/ (beta = 1 /\ 0 < alpha) ->
  path_derive (fun s => g3 s alpha beta) x (dg x alpha beta).
Proof.
  intros O. unfold g3, dg. set (D := (alpha, 1 - beta)).
  assert (NB : beta <> 0) by lra.
  assert (ND : D <> RtoC 0).
  { destruct O as [O|[O|[O O']]]; [apply nz_im; lra|apply nz_im; lra|apply nz_re; lra]. }
  assert (NX : (x, - beta) <> RtoC 0) by (apply nz_im; lra).
  assert (NA : (alpha - x, 1) <> RtoC 0) by (apply nz_im; lra).
  assert (NA' : (x - alpha, -1) <> RtoC 0) by (apply nz_im; lra).
  assert (E1 : Cminus (RtoC 1) (Cdiv (alpha - x, 1) D) = Cdiv (x, - beta) D).
  { replace (alpha - x, 1) with (Cminus D (x, - beta)) by (apply Ceq; cbn; ring). field. exact ND. }
  assert (OX : off_slit (Cdiv (x, - beta) D) /\ clog (Cdiv (x, - beta) D) = Cminus (clog (x, - beta)) (clog D)).
  { destruct O as [O|[O|[O O']]].
    - split; [apply div_upper_off_slit|apply clog_div_upper]; unfold D; cbn [snd]; lra.
    - split; [apply div_lower_off_slit|apply clog_div_lower]; unfold D; cbn [snd]; lra.
    - assert (K : 0 < / alpha) by now apply Rinv_0_lt_compat.
      assert (ED : Cdiv (x, - beta) D = (/ alpha * x, / alpha * (- beta))).
      { unfold D. rewrite O. apply Ceq; unfold Cdiv, Cmult, Cinv; cbn [fst snd]; field; lra. }
      split.
      + rewrite ED. right. cbn [snd]. nra.
      + apply Ceq; cbn [fst snd clog Cminus Cplus Copp].
        * now apply ln_Cmod_div.
        * rewrite ED, carg_scale by exact K. unfold D. rewrite (carg_right alpha) by exact O'. rewrite O.
          replace ((1 - 1) / alpha) with 0 by (field; lra). rewrite atan_0. ring. }
  destruct OX as [OX LX].
  assert (PW : path_derive (fun s => Cdiv (alpha - s, 1) D) x (Copp (Cdiv (RtoC 1) D))).
  { pose proof (pd_div _ _ x _ _ (pd_minus_id alpha 1 x) (pd_const D x) ND) as P. rewrite RCm1 in P.
    replace (Copp (Cdiv (RtoC 1) D)) with (Cdiv (Cminus (Copp (RtoC 1)) (Cmult (Cdiv (alpha - x, 1) D) (RtoC 0))) D); [exact P|]. field. exact ND. }
  assert (OA : off_slit (alpha - x, 1)) by (right; cbn [snd]; lra).
  pose proof (pd_minus _ _ x _ _ (pd_mult _ _ x _ _ (pd_const (clog D) x) (pd_log _ x _ (pd_minus_id alpha 1 x) OA))
    (pd_Li2 _ x _ PW (Cdiv_nz _ _ NA ND) ltac:(cbv beta; rewrite E1; exact OX))) as P.
  cbv beta in P. rewrite E1, LX, RCm1 in P.
  match type of P with path_derive _ _ ?l => replace (Cdiv (clog (x, - beta)) (x - alpha, -1)) with l; [exact P|] end.
  replace (x - alpha, -1) with (Copp (alpha - x, 1)) by (apply Ceq; cbn; ring).
  assert (NO : Copp (alpha - x, 1) <> RtoC 0) by (apply nz_im; cbn; lra).
  set (L := clog D). set (M := clog (x, - beta)). field.
  repeat (split; [assumption|]). assumption.
Qed.

Lemma g_branch x alpha beta : beta <> 0 \/ x <> 0 ->
  g Li2 x alpha beta = if Rlt_dec (Rabs beta) 1 then g1 x alpha beta
    else if isv beta 1 && (if Rle_dec alpha 0 then true else false) then g2 x alpha beta else g3 x alpha beta.
Proof.
  intros O. unfold g. assert (E : isv x 0 && isv beta 0 = false).
  { apply andb_false_iff. destruct O; [right|left]; now apply isv_false. }
  rewrite E. unfold g1, g2, g3. destruct (Rlt_dec (Rabs beta) 1); [reflexivity|]. destruct (_ && _); reflexivity.
Qed.
Lemma g_derive x alpha beta : beta <> 0 \/ 0 < x ->
  path_derive (fun s => g Li2 s alpha beta) x (dg x alpha beta).
Proof.
  intros O.
  apply (pd_ext_loc (fun s => if Rlt_dec (Rabs beta) 1 then g1 s alpha beta
    else if isv beta 1 && (if Rle_dec alpha 0 then true else false) then g2 s alpha beta else g3 s alpha beta)).
  - destruct O as [O|O].
    + apply filter_forall. intros s. symmetry. apply g_branch. now left.
    + generalize (is_derive_locally_pos _ _ _ (is_derive_id x) O). apply filter_imp. intros s Hs. symmetry. apply g_branch. right. lra.
  - destruct (Rlt_dec (Rabs beta) 1) as [B|B]; [now apply g1_derive|].
    destruct (Req_dec beta 1) as [E|E].
    + rewrite (isv_true _ _ E). cbn [andb]. destruct (Rle_dec alpha 0); [now apply g2_derive|]. apply g3_derive. right; right. split; lra.
    + rewrite (isv_false _ _ E). cbn [andb]. apply g3_derive.
      destruct (Rle_dec beta 0); [left|right; left].
      * rewrite Rabs_left1 in B by lra. lra.
      * rewrite Rabs_right in B by lra. lra.
Qed.

(** ** G *)
Definition H (alpha beta x : R) : R :=
  snd (Cplus (Cplus (Cplus (g Li2 x alpha beta) (g Li2 x alpha (- beta))) (Copp (g Li2 0 alpha beta))) (Copp (g Li2 0 alpha (- beta)))).
Lemma G_H x alpha beta : G Li2 x alpha beta = if Rle_dec 0 x then H alpha beta x else - H (- alpha) beta (- x).
Proof. unfold G, H. destruct (Rle_dec 0 x); ring. Qed.
Lemma H_0 alpha beta : H alpha beta 0 = 0.
Proof. unfold H. cbn [snd Cplus Copp]. ring. Qed.
Lemma clog_conj_sum x beta : beta <> 0 \/ 0 < x ->
  Cplus (clog (x, - beta)) (clog (x, - - beta)) = RtoC (ln (x ^ 2 + beta ^ 2)).
Proof.
  intros O. assert (S : off_slit (x, beta)) by (unfold off_slit; cbn [fst snd]; destruct O; [right|left]; assumption).
  rewrite Ropp_involutive. pose proof (off_slit_nonzero _ S) as N.
  assert (S' : off_slit (x, - beta)) by exact (off_slit_conj _ S). pose proof (off_slit_nonzero _ S') as N'.
  apply Ceq; unfold clog; cbn [fst snd Cplus RtoC].
  - rewrite !ln_Cmod by assumption. cbn [fst snd]. replace ((- beta) ^ 2) with (beta ^ 2) by ring. lra.
  - rewrite carg_conj by exact S. ring.
Qed.
Lemma H_derive alpha beta x : beta <> 0 \/ 0 < x ->
  is_derive (H alpha beta) x (ln (x ^ 2 + beta ^ 2) / ((x - alpha) ^ 2 + 1)).
Proof.
  intros O. assert (O' : - beta <> 0 \/ 0 < x) by (destruct O; [left|right]; lra).
  pose proof (pd_plus _ _ x _ _ (pd_plus _ _ x _ _ (pd_plus _ _ x _ _ (g_derive x alpha beta O) (g_derive x alpha (- beta) O'))
     (pd_const (Copp (g Li2 0 alpha beta)) x)) (pd_const (Copp (g Li2 0 alpha (- beta))) x)) as P.
  destruct P as [_ P]. cbv beta in P. fold (H alpha beta) in P.
  match type of P with is_derive _ _ ?l => replace (ln (x ^ 2 + beta ^ 2) / ((x - alpha) ^ 2 + 1)) with l; [exact P|] end.
  unfold dg.
  assert (NA : (x - alpha, -1) <> RtoC 0) by (apply nz_im; lra).
  match goal with |- snd ?z = _ => replace z with (Cdiv (Cplus (clog (x, - beta)) (clog (x, - - beta))) (x - alpha, -1)) end.
  2:{ field. exact NA. }
  rewrite clog_conj_sum by exact O. unfold Cdiv, Cmult, Cinv. cbn [fst snd RtoC]. field. pose proof (pow2_ge_0 (x - alpha)). lra.
Qed.
Lemma H_zero_beta alpha x : 0 <= x ->
  H alpha 0 x = 2 * (ln (Rabs (x - 0)) * (carg (Cdiv (alpha - x, 1) (alpha, 1)) - carg (Cdiv (alpha - 0, 1) (alpha, 1)))
                     + snd (Li2 (Cdiv (x, 0) (alpha, 1)))).
Proof.
  intros X0. assert (ND : (alpha, 1) <> RtoC 0) by (apply nz_im; lra).
  assert (R0 : carg (Cdiv (alpha - 0, 1) (alpha, 1)) = 0).
  { replace (alpha - 0) with alpha by ring. replace (Cdiv (alpha, 1) (alpha, 1)) with (RtoC 1) by (field; exact ND).
    unfold RtoC. rewrite carg_right by lra. replace (0 / 1) with 0 by field. apply atan_0. }
  rewrite R0. destruct (Req_dec x 0) as [->|NX].
  - rewrite H_0, R0. replace (Cdiv (0, 0) (alpha, 1)) with (RtoC 0) by (apply Ceq; unfold Cdiv, Cmult; cbn [fst snd RtoC]; ring).
    destruct HLi as [L0 _]. rewrite L0. cbn [snd RtoC]. ring.
  - unfold H. rewrite !(g_branch x) by (right; exact NX).
    assert (A : forall b, b = 0 -> g Li2 0 alpha b = RtoC 0).
    { intros b ->. unfold g. now rewrite (isv_true 0 0 eq_refl). }
    rewrite (A 0), (A (- 0)) by ring. rewrite Ropp_0, Rabs_R0. destruct (Rlt_dec 0 1); [|lra].
    unfold g1. replace (1 - 0) with 1 by ring. replace (x - 0) with x by ring. rewrite Ropp_0.
    assert (C0 : clog (x, 0) = (ln (Rabs x), 0)).
    { unfold clog. rewrite carg_right by lra. replace (0 / x) with 0 by (field; lra). rewrite atan_0. f_equal. f_equal.
      unfold Cmod. cbn [fst snd]. replace (x ^ 2 + 0 ^ 2) with (Rsqr x) by (unfold Rsqr; ring). apply sqrt_Rsqr_abs. }
    rewrite C0. unfold clog. cbn [fst snd Cplus Cmult Copp RtoC]. ring.
Qed.
Lemma H_zero_beta_cont alpha x :
  continuous (fun x => 2 * (ln (Rabs (x - 0)) * (carg (Cdiv (alpha - x, 1) (alpha, 1)) - carg (Cdiv (alpha - 0, 1) (alpha, 1)))
                     + snd (Li2 (Cdiv (x, 0) (alpha, 1))))) x.
Proof.
  set (D := (alpha, 1)). assert (ND : D <> RtoC 0) by (apply nz_im; lra).
  assert (PR : forall x, path_derive (fun s => Cdiv (alpha - s, 1) D) x (Cdiv (Cminus (-1, 0) (Cmult (Cdiv (alpha - x, 1) D) (RtoC 0))) D)).
  { intros s. exact (pd_div _ _ s _ _ (pd_minus_id alpha 1 s) (pd_const D s) ND). }
  assert (OR : forall x, off_slit (Cdiv (alpha - x, 1) D)) by (intros s; apply div_upper_off_slit; unfold D; cbn [snd]; lra).
  assert (DA : forall x, ex_derive (fun s => carg (Cdiv (alpha - s, 1) D)) x).
  { intros s. eexists. exact (pd_arg _ s _ (PR s) (OR s)). }
  assert (PW : path_derive (fun s => Cdiv (s, 0) D) x (Cdiv (Cminus (1, 0) (Cmult (Cdiv (x, 0) D) (RtoC 0))) D)).
  { exact (pd_div _ _ x _ _ (pd_id 0 x) (pd_const D x) ND). }
  assert (CL : continuous (fun s => snd (Li2 (Cdiv (s, 0) D))) x).
  { destruct (Req_dec x 0) as [->|NX].
    - destruct HLi as (_ & _ & L). destruct (L _ 0 _ PW) as [_ P].
      + apply Ceq; unfold Cdiv, Cmult; cbn [fst snd RtoC]; ring.
      + exact (d_cont _ _ _ P).
    - assert (NW : Cdiv (x, 0) D <> RtoC 0) by (apply Cdiv_nz; [now apply nz_re|exact ND]).
      assert (E1 : Cminus (RtoC 1) (Cdiv (x, 0) D) = Cdiv (alpha - x, 1) D).
      { replace (alpha - x, 1) with (Cminus D (x, 0)) by (apply Ceq; cbn; ring). field. exact ND. }
      assert (OE : off_slit (Cminus (RtoC 1) (Cdiv (x, 0) D))) by (rewrite E1; apply OR).
      destruct (pd_Li2 _ x _ PW NW OE) as [_ P]. exact (d_cont _ _ _ P). }
  apply (continuous_mult (fun _ => 2)); [apply continuous_const|]. apply (continuous_plus (V := R_NormedModule)); [|exact CL].
  destruct (Req_dec x 0) as [->|NX].
  - destruct (DA 0) as [l P]. pose proof (continuous_diff_ln (fun s => carg (Cdiv (alpha - s, 1) D)) 0 l P) as Q.
    revert Q. apply continuous_ext. intros s. apply Rmult_comm.
  - apply (continuous_mult (fun s => ln (Rabs (s - 0)))).
    + apply (continuous_ext (fun s => ln (Rabs s))); [intros s; now rewrite Rminus_0_r|]. now apply continuous_lnabs.
    + apply (continuous_minus (V := R_NormedModule)); [|apply continuous_const]. destruct (DA x) as [l P]. exact (d_cont _ _ _ P).
Qed.
(** a continuous function that agrees with H from 0 on *)
Lemma H_ext alpha beta : exists K, (forall x, continuous K x) /\ (forall x, 0 <= x -> H alpha beta x = K x).
Proof.
  destruct (Req_dec beta 0) as [->|NB].
  - eexists. split; [intros x; apply (H_zero_beta_cont alpha x)|]. intros x. apply H_zero_beta.
  - exists (H alpha beta). split; [|reflexivity]. intros x. refine (d_cont _ _ _ (H_derive alpha beta x _)). now left.
Qed.
Lemma continuous_glue (f1 f2 : R -> R) x : continuous f1 x -> continuous f2 x -> (x = 0 -> f1 0 = f2 0) ->
  continuous (fun s => if Rle_dec 0 s then f1 s else f2 s) x.
Proof.
  intros C1 C2 E. destruct (Rtotal_order x 0) as [L|[->|L]].
  - apply (continuous_ext_loc _ f2); [|exact C2].
    generalize (is_derive_locally_neg _ _ _ (is_derive_id x) L). apply filter_imp. intros s Hs. destruct (Rle_dec 0 s); [lra|reflexivity].
  - specialize (E eq_refl). intros P. destruct (Rle_dec 0 0) as [_|n]; [|lra]. intros HP.
    pose proof (C1 P HP) as Q1. rewrite E in HP. pose proof (C2 P HP) as Q2. unfold filtermap in *.
    generalize (filter_and _ _ Q1 Q2). apply filter_imp. intros s [A B]. destruct (Rle_dec 0 s); assumption.
  - apply (continuous_ext_loc _ f1); [|exact C1].
    generalize (is_derive_locally_pos _ _ _ (is_derive_id x) L). apply filter_imp. intros s Hs. destruct (Rle_dec 0 s); [reflexivity|lra].
Qed.
Lemma continuous_neg (f : R -> R) x : continuous f (- x) -> continuous (fun s => - f (- s)) x.
Proof.
  intros Cf. apply (continuous_opp (V := R_NormedModule) (fun s => f (- s))).
  apply (continuous_comp Ropp f); [|exact Cf]. apply (continuous_opp (V := R_NormedModule) (fun s => s)), continuous_id.
Qed.
Lemma G_cont alpha beta x : continuous (fun x => G Li2 x alpha beta) x.
Proof.
  destruct (H_ext alpha beta) as (K1 & C1 & E1). destruct (H_ext (- alpha) beta) as (K2 & C2 & E2).
  apply (continuous_ext (fun s => if Rle_dec 0 s then K1 s else - K2 (- s))).
  - intros s. rewrite G_H. destruct (Rle_dec 0 s); [now rewrite E1|rewrite E2; [reflexivity|lra]].
  - apply (continuous_glue K1 (fun s => - K2 (- s))); [apply C1|apply continuous_neg, C2|].
    intros _. rewrite Ropp_0, <- E1, <- E2, !H_0 by lra. ring.
Qed.
Lemma G_derive alpha beta x : x <> 0 ->
  is_derive (fun x => G Li2 x alpha beta) x (ln (x ^ 2 + beta ^ 2) / ((x - alpha) ^ 2 + 1)).
Proof.
  intros NX. destruct (Rtotal_order x 0) as [L|[->|L]]; [|lra|].
  - apply (is_derive_ext_loc (fun s => - H (- alpha) beta (- s))).
    + generalize (is_derive_locally_neg _ _ _ (is_derive_id x) L). apply filter_imp. intros s Hs. rewrite G_H.
      destruct (Rle_dec 0 s); [lra|reflexivity].
    + assert (Q : is_derive (fun s => - s) x (-1)).
      { evar_last. { exact (d_opp _ x _ (is_derive_id x)). } reflexivity. }
      assert (P : beta <> 0 \/ 0 < - x) by (right; lra). apply (H_derive (- alpha)) in P.
      evar_last. { exact (d_opp _ x _ (is_derive_comp (H (- alpha) beta) (fun s => - s) x _ _ P Q)). }
      change (@scal R_AbsRing R_NormedModule) with Rmult. cbv beta.
      replace ((- x) ^ 2) with (x ^ 2) by ring. replace ((- x - - alpha) ^ 2) with ((x - alpha) ^ 2) by ring. ring.
  - apply (is_derive_ext_loc (H alpha beta)).
    + generalize (is_derive_locally_pos _ _ _ (is_derive_id x) L). apply filter_imp. intros s Hs. rewrite G_H.
      destruct (Rle_dec 0 s); [reflexivity|lra].
    + apply H_derive. now right.
Qed.

(** ** F *)
Lemma F_cont a b c d x : 0 < b -> continuous (fun x => F Li2 x a b c d) x.
Proof.
  intros B. unfold F. apply (continuous_plus (V := R_NormedModule)).
  - apply (continuous_comp (fun x => x / b) (fun y => G Li2 y (a / b) (c / b))); [|apply G_cont].
    apply (ex_derive_continuous (V := R_NormedModule)). auto_derive. auto.
  - apply (continuous_mult (fun _ => ln (b ^ 2 / d ^ 2))); [apply continuous_const|].
    apply (continuous_plus (V := R_NormedModule)); [|apply continuous_const].
    apply (continuous_comp (fun x => (x - a) / b) atan).
    + apply (ex_derive_continuous (V := R_NormedModule)). auto_derive. auto.
    + apply (ex_derive_continuous (V := R_NormedModule)). eexists. apply is_derive_Reals, derivable_pt_lim_atan.
Qed.
Lemma F_derive a b c d x : 0 < b -> 0 < d -> x <> 0 ->
  is_derive (fun x => F Li2 x a b c d) x (b / ((x - a) ^ 2 + b ^ 2) * ln ((x ^ 2 + c ^ 2) / d ^ 2)).
Proof.
  intros B D NX. unfold F.
  assert (Q : is_derive (fun x => x / b) x (/ b)) by (auto_derive; [auto|field; lra]).
  assert (NX' : x / b <> 0) by (unfold Rdiv; apply Rmult_integral_contrapositive_currified; [exact NX|apply Rinv_neq_0_compat; lra]).
  pose proof (is_derive_comp (fun y => G Li2 y (a / b) (c / b)) (fun x => x / b) x _ _ (G_derive (a / b) (c / b) (x / b) NX') Q) as P1.
  assert (Q2 : is_derive (fun x => (x - a) / b) x (/ b)) by (auto_derive; [auto|field; lra]).
  pose proof (is_derive_atan_path _ x _ Q2) as P2.
  evar_last.
  { exact (d_plus _ _ x _ _ P1 (d_mult _ _ x _ _ (d_const (ln (b ^ 2 / d ^ 2)) x) (d_plus _ _ x _ _ P2 (d_const (atan (a / b)) x)))). }
  cbv beta. change (@scal R_AbsRing R_NormedModule) with Rmult.
  assert (XC : 0 < x ^ 2 + c ^ 2) by nra. assert (B2 : 0 < b ^ 2) by nra. assert (D2 : 0 < d ^ 2) by nra.
  replace ((x / b) ^ 2 + (c / b) ^ 2) with ((x ^ 2 + c ^ 2) / b ^ 2) by (field; lra).
  rewrite !ln_quot by assumption.
  set (l1 := ln (x ^ 2 + c ^ 2)). set (l2 := ln (b ^ 2)). set (l3 := ln (d ^ 2)).
  assert (N : 0 < (x - a) ^ 2 + b ^ 2) by (pose proof (pow2_ge_0 (x - a)); lra).
  replace ((x / b - a / b) ^ 2 + 1) with (((x - a) ^ 2 + b ^ 2) / b ^ 2) by (field; lra).
  replace (1 + ((x - a) / b) ^ 2) with (((x - a) ^ 2 + b ^ 2) / b ^ 2) by (field; lra).
  set (n := (x - a) ^ 2 + b ^ 2) in *. field. repeat split; lra.
Qed.
End Antiderivative.
