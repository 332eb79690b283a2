(** BlockTransform and biject_to *)
From Coq Require Import Reals Lra Lia List Bool.
From Verif Require Import Model_X Spec_X Proofs_X Model_Likelihood Model_Joint Proofs_Joint Model_Constraints Spec_Constraints
  Proofs_Constraints Model_Transform Spec_Transform Proofs_Transform.
Import ListNotations.

Section Block.
Open Scope nat_scope.

Lemma take_consecutive : forall xs slices pre post, consecutive (length pre) xs slices ->
  map (take_slice (pre ++ List.concat xs ++ post)) slices = xs.
Proof.
  induction xs as [|x xs IH]; intros slices pre post H; inversion H; subst; [reflexivity| |].
  - cbn [map List.concat]. rewrite <- app_assoc. f_equal.
    + unfold take_slice. replace (length pre + length x - length pre) with (length x) by lia. apply dyn_slice_app.
    + rewrite app_assoc. apply IH. now rewrite app_length.
  - cbn [map List.concat]. rewrite <- app_assoc. f_equal.
    + unfold take_slice. cbn [app]. apply dyn_index_app.
    + rewrite app_assoc. apply IH. rewrite app_length. assumption.
Qed.
Lemma consecutive_length : forall xs k slices, consecutive k xs slices -> length xs = length slices.
Proof. induction 1; cbn; auto. Qed.
Lemma consecutive_same_lengths : forall xs ys k slices, consecutive k xs slices ->
  Forall2 (fun x y : list X => length y = length x) xs ys -> consecutive k ys slices.
Proof.
  intros xs ys k slices H. revert ys. induction H; intros ys F; inversion F as [|? y ? ? E F']; subst; [constructor| |].
  - rewrite <- E. constructor. rewrite E. now apply IHconsecutive.
  - destruct y as [|b [|]]; try discriminate. constructor. now apply IHconsecutive.
Qed.

Variable ts : list transform.
Variable xs : list (list X).
Variable slices : list slice.
Hypothesis Hcut : consecutive 0 xs slices.
Hypothesis Hts : length ts = length xs.

Lemma block_pieces {A} (g : transform -> list X -> A) : forall ys, Forall2 (fun x y : list X => length y = length x) xs ys ->
  map (fun p => g (fst p) (take_slice (List.concat ys) (snd p))) (combine ts slices)
  = map (fun p => g (fst p) (snd p)) (combine ts ys).
Proof.
  intros ys F. pose proof (take_consecutive ys slices [] [] (consecutive_same_lengths _ _ _ _ Hcut F)) as E.
  cbn [app] in E. rewrite app_nil_r in E. replace (combine ts ys) with (combine ts (map (take_slice (List.concat ys)) slices)) by now rewrite E.
  rewrite combine_map_r, map_map. reflexivity.
Qed.
Lemma same_self : Forall2 (fun x y : list X => length y = length x) xs xs.
Proof. clear. induction xs; constructor; auto. Qed.

Lemma block_call_parts : block_call ts slices (List.concat xs) = List.concat (map (fun p => t_call (fst p) (snd p)) (combine ts xs)).
Proof. unfold block_call. now rewrite (block_pieces t_call xs same_self). Qed.

Lemma call_lengths : Forall2 (fun t x => length (t_call t x) = length x) ts xs ->
  Forall2 (fun x y : list X => length y = length x) xs (map (fun p => t_call (fst p) (snd p)) (combine ts xs)).
Proof. clear. induction 1; cbn; constructor; auto. Qed.

Lemma block_inverse_parts : Forall2 (fun t x => length (t_call t x) = length x) ts xs ->
  Forall2 (fun t x => t_inverse t (t_call t x) = x) ts xs ->
  block_inverse ts slices (block_call ts slices (List.concat xs)) = List.concat xs.
Proof.
  intros L R. rewrite block_call_parts. unfold block_inverse. rewrite (block_pieces t_inverse _ (call_lengths L)). f_equal.
  clear -R. induction R; cbn; auto. now rewrite H, IHR.
Qed.
Lemma fold_ladj : forall (l : list (transform * slice)) x y a,
  fold_left (fun acc p => xadd acc (t_ladj (fst p) (take_slice x (snd p)) (take_slice y (snd p)))) l a
  = xadd a (fold_right xadd (Fin 0%R) (map (fun p => t_ladj (fst p) (take_slice x (snd p)) (take_slice y (snd p))) l)).
Proof.
  induction l as [|p l IH]; intros x y a; cbn [fold_left map fold_right]; [now rewrite xadd_0_r|].
  rewrite IH. now rewrite <- xadd_assoc.
Qed.
Lemma block_ladj_parts : Forall2 (fun t x => length (t_call t x) = length x) ts xs ->
  block_ladj ts slices (List.concat xs) (block_call ts slices (List.concat xs))
  = fold_right xadd (Fin 0%R) (map (fun p => t_ladj (fst p) (snd p) (t_call (fst p) (snd p))) (combine ts xs)).
Proof.
  intros L. unfold block_ladj. rewrite fold_ladj, xadd_0_l. rewrite block_call_parts.
  pose proof (take_consecutive xs slices [] [] Hcut) as E. cbn [app] in E. rewrite app_nil_r in E.
  pose proof (take_consecutive _ slices [] [] (consecutive_same_lengths _ _ _ _ Hcut (call_lengths L))) as E2.
  cbn [app] in E2. rewrite app_nil_r in E2.
  set (Y := List.concat (map (fun p => t_call (fst p) (snd p)) (combine ts xs))) in *. set (W := List.concat xs) in *. clearbody Y W.
  pose proof (consecutive_length _ _ _ Hcut) as Hl.
  f_equal. clear L Hcut. revert xs slices Hts E E2 Hl.
  induction ts as [|t ts' IH]; intros [|x xs'] [|s sl] A B C D; try discriminate; [reflexivity|].
  cbn in B, C |- *. injection B as B1 B. injection C as C1 C. rewrite B1, C1. f_equal. apply IH; auto.
Qed.
Lemma fold_and {A} (g : A -> bool) : forall (l : list A) a, fold_left (fun acc p => acc && g p) l a = a && forallb g l.
Proof. induction l as [|p l IH]; intros a; cbn; [now rewrite andb_true_r|]. now rewrite IH, andb_assoc. Qed.
Lemma block_domain_parts : block_domain ts slices (List.concat xs) = forallb (fun p => t_domain (fst p) (snd p)) (combine ts xs).
Proof.
  unfold block_domain. rewrite (fold_and (fun p => t_domain (fst p) (take_slice (List.concat xs) (snd p)))). cbn [andb].
  pose proof (block_pieces t_domain xs same_self) as E.
  transitivity (forallb (fun b => b) (map (fun p => t_domain (fst p) (take_slice (List.concat xs) (snd p))) (combine ts slices))).
  - clear. induction (combine ts slices); cbn; congruence.
  - rewrite E. clear. induction (combine ts xs); cbn; congruence.
Qed.
Lemma block_codomain_parts : Forall2 (fun t x => length (t_call t x) = length x) ts xs ->
  block_codomain ts slices (block_call ts slices (List.concat xs)) = forallb (fun p => t_codomain (fst p) (t_call (fst p) (snd p))) (combine ts xs).
Proof.
  intros S. unfold block_codomain. rewrite (fold_and (fun p => t_codomain (fst p) (take_slice (block_call ts slices (List.concat xs)) (snd p)))). cbn [andb].
  rewrite block_call_parts. pose proof (block_pieces t_codomain _ (call_lengths S)) as E.
  transitivity (forallb (fun b => b) (map (fun p => t_codomain (fst p) (take_slice (List.concat (map (fun p => t_call (fst p) (snd p)) (combine ts xs))) (snd p))) (combine ts slices))).
  - generalize (List.concat (map (fun p => t_call (fst p) (snd p)) (combine ts xs))). clear. intros l. induction (combine ts slices); cbn; congruence.
  - rewrite E. clear -S. induction S; cbn; [reflexivity|]. now rewrite IHS.
Qed.
End Block.

Section Biject.
Open Scope R_scope.
Fixpoint sums (acc : R) (l : list R) : list R := match l with [] => [] | a :: t => (acc + a) :: sums (acc + a) t end.
Lemma cumsum_fins : forall l acc, cumsum (Fin acc) (fins l) = fins (sums acc l).
Proof. induction l as [|a t IH]; intros acc; [reflexivity|]. cbn. f_equal. apply IH. Qed.
Lemma ordered_fins : forall a l, ordered (map xabs (fins (a :: l))) = fins (Rabs a :: sums (Rabs a) (map (fun b => exp (Rabs b)) l)).
Proof.
  intros a l. cbn [map fins ordered xabs]. change (map xabs (map Fin l)) with (map xabs (fins l)).
  assert (E : map xexp (map xabs (fins l)) = fins (map (fun b => exp (Rabs b)) l)).
  { unfold fins. now rewrite !map_map. }
  rewrite E. cbn [cumsum xadd]. rewrite Rplus_0_l, cumsum_fins. reflexivity.
Qed.
Lemma sums_increasing : forall l acc, Forall (fun a => 0 < a) l ->
  adjacent xgtb (fins (acc :: sums acc l)) = true /\ Forall (fun s => acc < s) (sums acc l).
Proof.
  induction l as [|a t IH]; intros acc H; [split; [reflexivity|constructor]|]. inversion H; subst. cbn [sums].
  destruct (IH (acc + a) H3) as [A B]. split.
  - change (fins (acc :: acc + a :: sums (acc + a) t)) with (Fin acc :: Fin (acc + a) :: fins (sums (acc + a) t)).
    rewrite adjacent_cons. apply andb_true_iff. split; [|exact A]. unfold xgtb. apply xltb_fin. lra.
  - constructor; [lra|]. eapply Forall_impl; [|exact B]. intros; cbn in *; lra.
Qed.
Lemma exps_pos : forall l, Forall (fun a => 0 < a) (map (fun b => exp (Rabs b)) l).
Proof. induction l; constructor; auto. apply exp_pos. Qed.

Lemma biject_increasing_strict : forall p, strictly_increasing_vector (biject_increasing (fins p)) = true.
Proof.
  intros [|a l]; [reflexivity|]. unfold biject_increasing. rewrite ordered_fins. apply sums_increasing, exps_pos.
Qed.
Lemma xlt_le a b : xltb a b = true -> xleb a b = true.
Proof. destruct a, b; cbn; try congruence. destruct (Rlt_dec r r0), (Rle_dec r r0); try congruence. lra. Qed.
Lemma adjacent_mono (c1 c2 : X -> X -> bool) : (forall a b, c1 a b = true -> c2 a b = true) -> forall l, adjacent c1 l = true -> adjacent c2 l = true.
Proof.
  intros H l. induction l as [|a [|b t] IH]; intros A; auto. rewrite adjacent_cons in *.
  apply andb_true_iff in A. destruct A as [A B]. apply andb_true_iff. split; auto.
Qed.
Lemma biject_positive_increasing : forall a l, a <> 0 -> positive_increasing_vector (biject_increasing (fins (a :: l))) = true.
Proof.
  intros a l Ha. unfold positive_increasing_vector. apply andb_true_iff. split.
  - apply (adjacent_mono xgtb); [|apply biject_increasing_strict]. intros x y. apply xlt_le.
  - unfold biject_increasing. rewrite ordered_fins. pose proof (Rabs_pos_lt a Ha).
    destruct (sums_increasing _ (Rabs a) (exps_pos l)) as [_ B]. unfold positive_vector, fins.
    apply forallb_forall. intros x Hx. apply in_map_iff in Hx. destruct Hx as (r & <- & [<-|Hr]); apply xltb_fin; auto.
    rewrite Forall_forall in B. specialize (B r Hr). lra.
Qed.
Lemma reciprocals : forall l acc, 0 < acc -> Forall (fun a => 0 < a) l ->
  map reciprocal (fins (acc :: sums acc l)) = fins (map (fun s => / s) (acc :: sums acc l))
  /\ adjacent xltb (fins (map (fun s => / s) (acc :: sums acc l))) = true
  /\ Forall (fun s => 0 < s <= / acc) (map (fun s => / s) (acc :: sums acc l)).
Proof.
  induction l as [|a t IH]; intros acc Hacc H.
  - cbn. destruct (Req_EM_T acc 0); [lra|]. unfold Rdiv. rewrite Rmult_1_l. split; [reflexivity|]. split; [reflexivity|].
    constructor; [|constructor]. split; [now apply Rinv_0_lt_compat|lra].
  - inversion H; subst. destruct (IH (acc + a) ltac:(lra) H3) as (A & B & C). cbn [sums].
    assert (L : / (acc + a) < / acc) by (apply Rinv_lt_contravar; [apply Rmult_lt_0_compat|]; lra).
    split; [|split].
    + cbn [fins map] in *. rewrite <- A. f_equal. unfold reciprocal. rewrite xdiv_fin' by lra. f_equal. unfold Rdiv. ring.
    + cbn [map fins] in *. rewrite adjacent_cons. apply andb_true_iff. split; [apply xltb_fin; exact L|exact B].
    + cbn [map]. constructor; [split; [now apply Rinv_0_lt_compat|lra]|]. eapply Forall_impl; [|exact C]. intros; cbn in *; lra.
Qed.
Lemma biject_decreasing_fins : forall a l, a <> 0 -> exists q, biject_decreasing (fins (a :: l)) = fins q /\ length q = S (length l)
  /\ adjacent xltb (fins q) = true /\ Forall (fun s => 0 < s) q.
Proof.
  intros a l Ha. unfold biject_decreasing. rewrite ordered_fins.
  destruct (reciprocals _ (Rabs a) (Rabs_pos_lt a Ha) (exps_pos l)) as (A & B & C).
  eexists. split; [exact A|]. split.
  - rewrite map_length. cbn. f_equal.
    assert (L : forall m acc, length (sums acc m) = length m) by (induction m; intros; cbn; auto). now rewrite L, map_length.
  - split; [exact B|]. eapply Forall_impl; [|exact C]. intros; cbn in *; lra.
Qed.
Definition sg (x : R) : R := 1 / (1 + exp (- x)).
Lemma sigmoid_fin : forall x, sigmoid (Fin x) = Fin (sg x).
Proof. intros x. unfold sigmoid. cbn [xopp xexp xadd]. rewrite xdiv_fin'; [reflexivity|]. pose proof (exp_pos (- x)). lra. Qed.
Lemma sg_range : forall x, 0 < x -> 1/2 < sg x < 1.
Proof.
  intros x H. unfold sg. pose proof (exp_pos (- x)). assert (exp (- x) < 1) by (rewrite <- exp_0; apply exp_increasing; lra).
  set (e := exp (- x)) in *. split.
  - apply Rmult_lt_reg_r with (1 + e); [lra|]. replace (1 / (1 + e) * (1 + e)) with 1 by (field; lra). lra.
  - apply Rmult_lt_reg_r with (1 + e); [lra|]. replace (1 / (1 + e) * (1 + e)) with 1 by (field; lra). lra.
Qed.
Lemma sg_increasing : forall x y, x < y -> sg x < sg y.
Proof.
  intros x y H. unfold sg. pose proof (exp_pos (- x)). pose proof (exp_pos (- y)).
  assert (exp (- y) < exp (- x)) by (apply exp_increasing; lra).
  unfold Rdiv. rewrite !Rmult_1_l. apply Rinv_lt_contravar; [apply Rmult_lt_0_compat; lra|lra].
Qed.
Lemma biject_two : forall a b, a <> 0 -> exists u v, 0 < v < u /\ biject_decreasing (fins [a; b]) = [Fin u; Fin v].
Proof.
  intros a b Ha. destruct (biject_decreasing_fins a [b] Ha) as (q & E & L & A & P).
  destruct q as [|u [|v [|]]]; try discriminate. exists u, v. split; [|exact E].
  inversion P; subst. inversion H2; subst. cbn [fins map] in A. rewrite adjacent_cons in A. apply andb_true_iff in A. destruct A as [A _].
  apply xltb_fin in A. lra.
Qed.
Lemma biject_sandwich : forall mmin mmax a b, mmin < mmax -> a <> 0 -> exists m1 m2,
  biject_mass_sandwich (Fin mmin) (Fin mmax) (fins [a; b]) = [Fin m1; Fin m2]
  /\ (mmin + mmax) / 2 < m2 < m1 /\ m1 < mmax.
Proof.
  intros mmin mmax a b Hm Ha. destruct (biject_two a b Ha) as (u & v & H & E). unfold biject_mass_sandwich. rewrite E. cbn [map].
  rewrite !sigmoid_fin. unfold affine, xsub. cbn [xadd xmul xopp]. do 2 eexists. split; [reflexivity|].
  pose proof (sg_range u ltac:(lra)). pose proof (sg_range v ltac:(lra)). pose proof (sg_increasing v u ltac:(lra)).
  split; [split|]; nra.
Qed.
Lemma biject_ratio : forall mmin mmax a b, mmin < mmax -> a <> 0 -> exists m1 q,
  biject_mass_ratio_sandwich (Fin mmin) (Fin mmax) (fins [a; b]) = [Fin m1; Fin q]
  /\ (mmin + mmax) / 2 < m1 < mmax /\ 1/2 < q < 1.
Proof.
  intros mmin mmax a b Hm Ha. destruct (biject_two a b Ha) as (u & v & H & E). unfold biject_mass_ratio_sandwich. rewrite E. cbn [map].
  rewrite !sigmoid_fin. unfold affine, xsub. cbn [xadd xmul xopp]. do 2 eexists. split; [reflexivity|].
  pose proof (sg_range u ltac:(lra)). pose proof (sg_range v ltac:(lra)). split; split; nra.
Qed.
Lemma biject_even : forall x, biject_decreasing (map xopp x) = biject_decreasing x /\ biject_increasing (map xopp x) = biject_increasing x.
Proof.
  intros x. unfold biject_decreasing, biject_increasing. assert (E : map xabs (map xopp x) = map xabs x).
  { rewrite map_map. apply map_ext. intros [r| | |]; cbn; try reflexivity. now rewrite Rabs_Ropp. }
  now rewrite E.
Qed.
Lemma ratio_violation : exists m1 q, biject_mass_ratio_sandwich (Fin 90) (Fin 100) (fins [1; 0]) = [Fin m1; Fin q] /\ m1 * q < 90.
Proof.
  unfold biject_mass_ratio_sandwich, biject_decreasing. rewrite ordered_fins. cbn [map sums fins]. rewrite Rabs_R1, Rabs_R0, exp_0.
  unfold reciprocal. rewrite !xdiv_fin' by lra. rewrite !sigmoid_fin. unfold affine, xsub. cbn [xadd xmul xopp]. do 2 eexists. split; [reflexivity|].
  pose proof (sg_range (1/1) ltac:(lra)). pose proof (sg_range (1/(1+1)) ltac:(lra)).
  assert (Q : sg (1/(1+1)) < 2/3).
  { unfold sg. assert (1/2 < exp (- (1/(1+1)))) by (pose proof (exp_ineq1 (- (1/(1+1))) ltac:(lra)); lra).
    set (e := exp (- (1/(1+1)))) in *. apply Rmult_lt_reg_r with (1 + e); [lra|]. replace (1 / (1 + e) * (1 + e)) with 1 by (field; lra). lra. }
  nra.
Qed.
End Biject.
