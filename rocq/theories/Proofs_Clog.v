(** Derivatives of complex numbers along a real parameter; the principal logarithm. *)
From Coq Require Import Reals Lra Lia.
From Coquelicot Require Import Coquelicot.
From Verif Require Import Model_JointSpin Spec_JointSpin.
Open Scope R_scope.

Lemma Ceq (z w : C) : fst z = fst w -> snd z = snd w -> z = w.
Proof. destruct z, w. cbn. congruence. Qed.

(** ** rules *)
Lemma pd_ext w w' t l : (forall s, w s = w' s) -> path_derive w t l -> path_derive w' t l.
Proof.
  intros H [A B]. split.
  - apply (is_derive_ext (fun s => fst (w s))); [intros s; now rewrite H|exact A].
  - apply (is_derive_ext (fun s => snd (w s))); [intros s; now rewrite H|exact B].
Qed.
Lemma pd_ext_loc w w' t l : locally t (fun s => w s = w' s) -> path_derive w t l -> path_derive w' t l.
Proof.
  intros H [A B]. split.
  - apply (is_derive_ext_loc (fun s => fst (w s))); [|exact A]. revert H. apply filter_imp. intros s ->. reflexivity.
  - apply (is_derive_ext_loc (fun s => snd (w s))); [|exact B]. revert H. apply filter_imp. intros s ->. reflexivity.
Qed.
Lemma pd_const c t : path_derive (fun _ => c) t (RtoC 0).
Proof. split; apply (is_derive_const (V := R_NormedModule)). Qed.
Lemma pd_pair f h t a b : is_derive f t a -> is_derive h t b -> path_derive (fun s => (f s, h s)) t (a, b).
Proof. intros A B. split; assumption. Qed.
Lemma pd_plus w v t l m : path_derive w t l -> path_derive v t m -> path_derive (fun s => Cplus (w s) (v s)) t (Cplus l m).
Proof.
  intros [A B] [A' B']. split; cbn.
  - apply (is_derive_plus (V := R_NormedModule)); assumption.
  - apply (is_derive_plus (V := R_NormedModule)); assumption.
Qed.
Lemma pd_opp w t l : path_derive w t l -> path_derive (fun s => Copp (w s)) t (Copp l).
Proof. intros [A B]. split; cbn; apply (is_derive_opp (V := R_NormedModule)); assumption. Qed.
Lemma pd_minus w v t l m : path_derive w t l -> path_derive v t m -> path_derive (fun s => Cminus (w s) (v s)) t (Cminus l m).
Proof. intros A B. apply pd_plus; [exact A|]. now apply pd_opp. Qed.
Lemma d_mult (f h : R -> R) t a b : is_derive f t a -> is_derive h t b ->
  is_derive (fun s => f s * h s) t (a * h t + f t * b).
Proof. intros A B. exact (is_derive_mult f h t a b A B Rmult_comm). Qed.
Lemma d_minus (f h : R -> R) t a b : is_derive f t a -> is_derive h t b ->
  is_derive (fun s => f s - h s) t (a - b).
Proof. exact (is_derive_minus (V := R_NormedModule) f h t a b). Qed.
Lemma d_plus (f h : R -> R) t a b : is_derive f t a -> is_derive h t b ->
  is_derive (fun s => f s + h s) t (a + b).
Proof. exact (is_derive_plus (V := R_NormedModule) f h t a b). Qed.
Lemma d_opp (f : R -> R) t a : is_derive f t a -> is_derive (fun s => - f s) t (- a).
Proof. exact (is_derive_opp (V := R_NormedModule) f t a). Qed.
Lemma d_const c t : is_derive (fun _ : R => c) t 0.
Proof. exact (is_derive_const (V := R_NormedModule) c t). Qed.
Lemma d_sq (f : R -> R) t a : is_derive f t a -> is_derive (fun s => f s ^ 2) t (2 * f t * a).
Proof. intros A. evar_last. { exact (is_derive_pow f 2 t a A). } cbn. ring. Qed.
Lemma d_div (f h : R -> R) t a b : is_derive f t a -> is_derive h t b -> h t <> 0 ->
  is_derive (fun s => f s / h s) t ((a * h t - f t * b) / h t ^ 2).
Proof. intros A B H. evar_last. { exact (is_derive_div f h t a b A B H). } cbn. field. exact H. Qed.
Lemma pd_mult w v t l m : path_derive w t l -> path_derive v t m ->
  path_derive (fun s => Cmult (w s) (v s)) t (Cplus (Cmult l (v t)) (Cmult (w t) m)).
Proof.
  intros [A B] [A' B']. split; cbn [fst snd Cmult Cplus].
  - evar_last. { exact (d_minus _ _ t _ _ (d_mult _ _ t _ _ A A') (d_mult _ _ t _ _ B B')). } cbv beta. ring.
  - evar_last. { exact (d_plus _ _ t _ _ (d_mult _ _ t _ _ A B') (d_mult _ _ t _ _ B A')). } cbv beta. ring.
Qed.
Lemma norm2_pos (z : C) : z <> RtoC 0 -> 0 < fst z ^ 2 + snd z ^ 2.
Proof.
  intros H. destruct z as [x y]. cbn [fst snd].
  destruct (Req_dec x 0) as [->|Hx]; [destruct (Req_dec y 0) as [->|Hy]; [exfalso; apply H; reflexivity|]|]; nra.
Qed.
Lemma pd_norm2 w t l : path_derive w t l ->
  is_derive (fun s => fst (w s) ^ 2 + snd (w s) ^ 2) t (2 * fst (w t) * fst l + 2 * snd (w t) * snd l).
Proof. intros [A B]. exact (d_plus _ _ t _ _ (d_sq _ t _ A) (d_sq _ t _ B)). Qed.
Lemma pd_inv w t l : path_derive w t l -> w t <> RtoC 0 ->
  path_derive (fun s => Cinv (w s)) t (Copp (Cdiv l (Cmult (w t) (w t)))).
Proof.
  intros P H. pose proof (norm2_pos _ H) as N. pose proof (pd_norm2 _ _ _ P) as Dn. destruct P as [A B].
  assert (N' : fst (w t) ^ 2 + snd (w t) ^ 2 <> 0) by lra.
  pose proof (d_div _ _ t _ _ A Dn N') as P1. pose proof (d_div _ _ t _ _ (d_opp _ t _ B) Dn N') as P2.
  split; unfold Cdiv, Cmult, Cinv; cbn [fst snd Copp].
  - evar_last. { exact P1. } cbv beta. set (x := fst (w t)) in *. set (y := snd (w t)) in *. clearbody x y.
    field. split; [|lra]. replace ((x * x - y * y) ^ 2 + (x * y + y * x) ^ 2) with ((x ^ 2 + y ^ 2) ^ 2) by ring. now apply pow_nonzero.
  - evar_last. { exact P2. } cbv beta. set (x := fst (w t)) in *. set (y := snd (w t)) in *. clearbody x y.
    field. split; [|lra]. replace ((x * x - y * y) ^ 2 + (x * y + y * x) ^ 2) with ((x ^ 2 + y ^ 2) ^ 2) by ring. now apply pow_nonzero.
Qed.
Lemma pd_div w v t l m : path_derive w t l -> path_derive v t m -> v t <> RtoC 0 ->
  path_derive (fun s => Cdiv (w s) (v s)) t (Cdiv (Cminus l (Cmult (Cdiv (w t) (v t)) m)) (v t)).
Proof.
  intros A B H. unfold Cdiv at 1. 
  assert (P := pd_mult _ _ _ _ _ A (pd_inv _ _ _ B H)). cbv beta in P.
  replace (Cdiv (Cminus l (Cmult (Cdiv (w t) (v t)) m)) (v t))
    with (Cplus (Cmult l (Cinv (v t))) (Cmult (w t) (Copp (Cdiv m (Cmult (v t) (v t)))))); [exact P|].
  unfold Cdiv. field. exact H.
Qed.

(** ** the principal logarithm *)
(** off the cut, the real numbers up to 0 *)
Definition off_slit (z : C) : Prop := 0 < fst z \/ snd z <> 0.
Lemma off_slit_nonzero z : off_slit z -> z <> RtoC 0.
Proof. intros [H|H] ->; cbn in H; lra. Qed.
Lemma carg_upper x y : 0 < y -> carg (x, y) = PI / 2 - atan (x / y).
Proof.
  intros H. unfold carg. destruct (Rlt_dec 0 x) as [Hx|Hx].
  - replace (y / x) with (/ (x / y)) by (field; lra). apply atan_inv. apply Rdiv_lt_0_compat; lra.
  - destruct (Rlt_dec 0 y); [reflexivity|contradiction].
Qed.
Lemma carg_right x y : 0 < x -> carg (x, y) = atan (y / x).
Proof. intros H. unfold carg. destruct (Rlt_dec 0 x); [reflexivity|contradiction]. Qed.
Lemma carg_conj x y : off_slit (x, y) -> carg (x, - y) = - carg (x, y).
Proof.
  intros H. unfold carg. destruct (Rlt_dec 0 x) as [Hx|Hx].
  - rewrite <- atan_opp. f_equal. field. lra.
  - destruct H as [H|H]; cbn in H; [contradiction|].
    destruct (Rlt_dec 0 y), (Rlt_dec y 0), (Rlt_dec 0 (- y)), (Rlt_dec (- y) 0); try lra.
    + replace (x / - y) with (- (x / y)) by (field; lra). rewrite atan_opp. lra.
    + replace (x / - y) with (- (x / y)) by (field; lra). rewrite atan_opp. lra.
Qed.
Lemma carg_lower x y : y < 0 -> carg (x, y) = - (PI / 2) - atan (x / y).
Proof.
  intros H. replace (x, y) with (x, - - y) by (f_equal; ring). rewrite carg_conj by (right; cbn; lra).
  rewrite carg_upper by lra. replace (x / - y) with (- (x / y)) by (field; lra). rewrite atan_opp. lra.
Qed.
Lemma is_derive_atan_path (u : R -> R) t a : is_derive u t a -> is_derive (fun s => atan (u s)) t (a / (1 + u t ^ 2)).
Proof.
  intros H. assert (D : is_derive atan (u t) (/ (1 + u t ^ 2))) by apply is_derive_Reals, derivable_pt_lim_atan.
  evar_last. { exact (is_derive_comp atan u t _ _ D H). }
  unfold scal; cbn; unfold mult; cbn. unfold Rsqr. field. nra.
Qed.
Lemma d_ln (u : R -> R) t a : is_derive u t a -> 0 < u t -> is_derive (fun s => ln (u s)) t (a / u t).
Proof.
  intros H P. assert (D : is_derive ln (u t) (/ u t)) by (apply is_derive_Reals, derivable_pt_lim_ln, P).
  evar_last. { exact (is_derive_comp ln u t _ _ D H). }
  unfold scal; cbn; unfold mult; cbn. field. lra.
Qed.
Lemma is_derive_locally_pos u t a : is_derive u t a -> 0 < u t -> locally t (fun s => 0 < u s).
Proof.
  intros H P. assert (Cn : continuous u t) by (apply (ex_derive_continuous (V := R_NormedModule)); now exists a).
  apply (Cn (fun y => 0 < y)). exists (mkposreal _ P). intros y Hy. unfold ball in Hy; cbn in Hy. unfold AbsRing_ball, minus, plus, opp, abs in Hy; cbn in Hy.
  apply Rabs_def2 in Hy. lra.
Qed.
Lemma is_derive_locally_neg u t a : is_derive u t a -> u t < 0 -> locally t (fun s => u s < 0).
Proof.
  intros H P. assert (H' : is_derive (fun s => - u s) t (- a)) by (apply (is_derive_opp (V := R_NormedModule)); exact H).
  generalize (is_derive_locally_pos _ _ _ H' ltac:(lra)). apply filter_imp. intros; lra.
Qed.
Lemma pd_arg w t l : path_derive w t l -> off_slit (w t) ->
  is_derive (fun s => carg (w s)) t (snd (Cdiv l (w t))).
Proof.
  intros [A B] H. pose proof (norm2_pos _ (off_slit_nonzero _ H)) as N.
  assert (V : snd (Cdiv l (w t)) = (snd l * fst (w t) - fst l * snd (w t)) / (fst (w t) ^ 2 + snd (w t) ^ 2)).
  { unfold Cdiv, Cmult, Cinv. cbn [fst snd]. field. lra. }
  rewrite V. clear V. unfold off_slit in H.
  assert (Ew : forall s, w s = (fst (w s), snd (w s))) by (intros s; apply surjective_pairing).
  destruct (Rlt_dec 0 (fst (w t))) as [Hx|Hx].
  - apply (is_derive_ext_loc (fun s => atan (snd (w s) / fst (w s)))).
    + generalize (is_derive_locally_pos _ _ _ A Hx). apply filter_imp. intros s Hs. rewrite (Ew s). cbn [fst snd]. now rewrite carg_right.
    + assert (NZ : fst (w t) <> 0) by lra. pose proof (is_derive_atan_path _ t _ (d_div _ _ t _ _ B A NZ)) as P.
      evar_last. { exact P. } cbv beta. set (x := fst (w t)) in *. set (y := snd (w t)) in *. clearbody x y.
      field; repeat split; lra.
  - destruct H as [H|H]; [contradiction|].
    pose proof (is_derive_atan_path _ t _ (d_div _ _ t _ _ A B H)) as P. destruct (Rlt_dec 0 (snd (w t))) as [Hy|Hy].
    + apply (is_derive_ext_loc (fun s => PI / 2 - atan (fst (w s) / snd (w s)))).
      * generalize (is_derive_locally_pos _ _ _ B Hy). apply filter_imp. intros s Hs. rewrite (Ew s). cbn [fst snd]. now rewrite carg_upper.
      * evar_last. { exact (d_minus _ _ t _ _ (d_const (PI / 2) t) P). }
        cbv beta. set (x := fst (w t)) in *. set (y := snd (w t)) in *. clearbody x y.
        field; repeat split; lra.
    + assert (Hy' : snd (w t) < 0) by lra.
      apply (is_derive_ext_loc (fun s => - (PI / 2) - atan (fst (w s) / snd (w s)))).
      * generalize (is_derive_locally_neg _ _ _ B Hy'). apply filter_imp. intros s Hs. rewrite (Ew s). cbn [fst snd]. now rewrite carg_lower.
      * evar_last. { exact (d_minus _ _ t _ _ (d_const (- (PI / 2)) t) P). }
        cbv beta. set (x := fst (w t)) in *. set (y := snd (w t)) in *. clearbody x y.
        field; repeat split; lra.
Qed.
Lemma ln_Cmod z : z <> RtoC 0 -> ln (Cmod z) = / 2 * ln (fst z ^ 2 + snd z ^ 2).
Proof.
  intros H. pose proof (norm2_pos z H) as N. unfold Cmod.
  assert (S : 0 < sqrt (fst z ^ 2 + snd z ^ 2)) by now apply sqrt_lt_R0.
  rewrite <- (sqrt_sqrt (fst z ^ 2 + snd z ^ 2)) at 2 by lra. rewrite ln_mult by assumption. lra.
Qed.
Lemma pd_log w t l : path_derive w t l -> off_slit (w t) ->
  path_derive (fun s => clog (w s)) t (Cdiv l (w t)).
Proof.
  intros P H. pose proof (pd_arg w t l P H) as Da. pose proof (pd_norm2 _ _ _ P) as Dn.
  pose proof (norm2_pos _ (off_slit_nonzero _ H)) as N. split; [|exact Da].
  apply (is_derive_ext_loc (fun s => / 2 * ln (fst (w s) ^ 2 + snd (w s) ^ 2))).
  - generalize (is_derive_locally_pos _ _ _ Dn N). apply filter_imp. intros s Hs. unfold clog. cbn [fst]. symmetry. apply ln_Cmod.
    intros E. rewrite E in Hs. cbn in Hs. lra.
  - evar_last. { exact (d_mult _ _ t _ _ (d_const (/ 2) t) (d_ln _ t _ Dn N)). }
    cbv beta. unfold Cdiv, Cmult, Cinv. cbn [fst snd]. field. lra.
Qed.

(** ** quotients of numbers in the same half plane *)
Lemma carg_scale k x y : 0 < k -> carg (k * x, k * y) = carg (x, y).
Proof.
  intros K. unfold carg.
  assert (forall u, 0 < k * u <-> 0 < u) by (intros u; split; intros; nra).
  assert (forall u, k * u < 0 <-> u < 0) by (intros u; split; intros; nra).
  destruct (Rlt_dec 0 x) as [a|a], (Rlt_dec 0 (k * x)) as [b|b]; try (exfalso; rewrite H in b; lra).
  { f_equal. field. lra. }
  destruct (Rlt_dec 0 y) as [c|c], (Rlt_dec 0 (k * y)) as [d|d]; try (exfalso; rewrite H in d; lra).
  { f_equal. f_equal. field. lra. }
  destruct (Rlt_dec y 0) as [e|e], (Rlt_dec (k * y) 0) as [f|f]; try (exfalso; rewrite H0 in f; lra).
  { f_equal. f_equal. field. lra. }
  destruct (Rlt_dec x 0) as [p|p], (Rlt_dec (k * x) 0) as [r|r]; try (exfalso; rewrite H0 in r; lra); reflexivity.
Qed.
Lemma zero_derive_const (h : R -> R) : (forall s, is_derive h s 0) -> forall a b, h a = h b.
Proof.
  intros D. assert (K : forall a b, a < b -> h a = h b).
  { intros a b L. apply (eq_is_derive (V := R_NormedModule) h a b); [intros; apply D|exact L]. }
  intros a b. destruct (Rtotal_order a b) as [L|[->|L]]; [now apply K|reflexivity|symmetry; now apply K].
Qed.
Lemma carg_atan_diff r p : carg (1 + r * p, p - r) = atan p - atan r.
Proof.
  set (h := fun p => carg (1 + r * p, p - r) - atan p).
  assert (D : forall p, is_derive h p 0).
  { intros s. unfold h.
    assert (P : path_derive (fun p => (1 + r * p, p - r)) s (r, 1)).
    { apply pd_pair.
      - evar_last. { exact (d_plus _ _ s _ _ (d_const 1 s) (d_mult _ _ s _ _ (d_const r s) (is_derive_id s))). } cbv beta. unfold one; cbn. ring.
      - evar_last. { exact (d_minus _ _ s _ _ (is_derive_id s) (d_const r s)). } unfold one; cbn. ring. }
    assert (O : off_slit (1 + r * s, s - r)).
    { unfold off_slit. cbn [fst snd]. destruct (Req_dec s r) as [->|]; [left; nra|right; lra]. }
    assert (T : is_derive atan s (/ (1 + s ^ 2))).
    { apply is_derive_Reals, derivable_pt_lim_atan. }
    evar_last. { exact (d_minus _ _ s _ _ (pd_arg _ s _ P O) T). }
    unfold Cdiv, Cmult, Cinv. cbn [fst snd]. assert (0 < 1 + s ^ 2) by nra. assert (0 < 1 + r ^ 2) by nra.
    assert (K : (1 + r * s) ^ 2 + (s - r) ^ 2 = (1 + r ^ 2) * (1 + s ^ 2)) by ring. rewrite K. field. split; nra. }
  pose proof (zero_derive_const h D p r) as E. unfold h in E.
  replace (carg (1 + r * r, r - r)) with 0 in E; [lra|].
  rewrite carg_right by nra. replace ((r - r) / (1 + r * r)) with 0 by (field; nra). now rewrite atan_0.
Qed.
Lemma carg_div_upper z d : 0 < snd z -> 0 < snd d -> carg (Cdiv z d) = carg z - carg d.
Proof.
  destruct z as [x y], d as [a b]. cbn [fst snd]. intros Y B.
  rewrite !carg_upper by assumption.
  replace (PI / 2 - atan (x / y) - (PI / 2 - atan (a / b))) with (atan (a / b) - atan (x / y)) by lra.
  rewrite <- carg_atan_diff.
  assert (K : 0 < y * b / (a ^ 2 + b ^ 2)) by (apply Rdiv_lt_0_compat; nra).
  rewrite <- (carg_scale _ (1 + x / y * (a / b)) (a / b - x / y) K). f_equal.
  apply Ceq; unfold Cdiv, Cmult, Cinv; cbn [fst snd]; field; split; try split; nra.
Qed.
Lemma Cdiv_conj z d : Cdiv (Cconj z) (Cconj d) = Cconj (Cdiv z d).
Proof.
  destruct z as [x y], d as [a b]. unfold Cdiv, Cmult, Cinv, Cconj. cbn [fst snd].
  replace ((- b) ^ 2) with (b ^ 2) by ring. apply Ceq; cbn [fst snd]; unfold Rdiv; ring.
Qed.
Lemma clog_conj z : off_slit z -> clog (Cconj z) = Cconj (clog z).
Proof.
  intros H. unfold clog, Cconj at 2. cbn [fst snd]. f_equal.
  - f_equal. unfold Cmod, Cconj. cbn [fst snd]. f_equal. f_equal. f_equal. ring.
  - destruct z as [x y]. unfold Cconj. cbn [fst snd]. now apply carg_conj.
Qed.
Lemma ln_Cmod_div z d : z <> RtoC 0 -> d <> RtoC 0 -> ln (Cmod (Cdiv z d)) = ln (Cmod z) - ln (Cmod d).
Proof.
  intros Z D. rewrite Cmod_div by assumption. apply Cmod_gt_0 in Z. apply Cmod_gt_0 in D.
  unfold Rdiv. rewrite ln_mult, ln_Rinv; [lra|assumption|assumption|now apply Rinv_0_lt_compat].
Qed.
Lemma clog_div_upper z d : 0 < snd z -> 0 < snd d -> clog (Cdiv z d) = Cminus (clog z) (clog d).
Proof.
  intros Y B. assert (z <> RtoC 0) by (intros ->; cbn in Y; lra). assert (d <> RtoC 0) by (intros ->; cbn in B; lra).
  apply Ceq; cbn [fst snd clog Cminus Cplus Copp].
  - now apply ln_Cmod_div.
  - now apply carg_div_upper.
Qed.
Lemma div_upper_off_slit z d : 0 < snd z -> 0 < snd d -> off_slit (Cdiv z d).
Proof.
  destruct z as [x y], d as [a b]. unfold off_slit, Cdiv, Cmult, Cinv. cbn [fst snd]. intros Y B.
  assert (N : 0 < / (a ^ 2 + b ^ 2)) by (apply Rinv_0_lt_compat; nra). unfold Rdiv.
  set (n := / (a ^ 2 + b ^ 2)) in *.
  destruct (Req_dec (y * a - x * b) 0) as [E|E]; [left|right; nra].
  replace (x * (a * n) - y * (- b * n)) with ((x * a + y * b) * n) by ring. apply Rmult_lt_0_compat; [|exact N].
  assert (x = y * a / b) by (apply (Rmult_eq_reg_r b); [field_simplify; lra|lra]). subst x.
  replace (y * a / b * a + y * b) with (y / b * (a ^ 2 + b ^ 2)) by (field; lra).
  apply Rmult_lt_0_compat; [apply Rdiv_lt_0_compat; assumption|nra].
Qed.
Lemma off_slit_conj z : off_slit z -> off_slit (Cconj z).
Proof. unfold off_slit, Cconj. cbn [fst snd]. intros [H|H]; [left|right]; lra. Qed.
Lemma Cconj_conj z : Cconj (Cconj z) = z.
Proof. destruct z as [x y]. unfold Cconj. cbn. f_equal. ring. Qed.
Lemma div_lower_off_slit z d : snd z < 0 -> snd d < 0 -> off_slit (Cdiv z d).
Proof.
  intros Y B. rewrite <- (Cconj_conj z), <- (Cconj_conj d), Cdiv_conj. apply off_slit_conj.
  apply div_upper_off_slit; unfold Cconj; cbn [snd]; lra.
Qed.
Lemma clog_div_lower z d : snd z < 0 -> snd d < 0 -> clog (Cdiv z d) = Cminus (clog z) (clog d).
Proof.
  intros Y B. rewrite <- (Cconj_conj z), <- (Cconj_conj d), Cdiv_conj.
  rewrite clog_conj by (apply div_upper_off_slit; unfold Cconj; cbn [snd]; lra).
  rewrite clog_div_upper by (unfold Cconj; cbn [snd]; lra).
  rewrite !(clog_conj (Cconj _)) by (apply off_slit_conj; right; lra).
  apply Ceq; unfold Cminus, Cplus, Copp, Cconj; cbn [fst snd]; ring.
Qed.
