(** Lemmas for C116: the leapfrog integrator preserves volume, and the step of _HMC is reversible. *)
From Coq Require Import String List Arith Bool ZArith Reals Lra Lia FunctionalExtensionality FinFun.
From Coquelicot Require Import Coquelicot.
From Verif Require Import Model_X Spec_X Proofs_X Model_Key Model_FlowMC Spec_FlowMC Proofs_FlowMC Spec_Invariance Proofs_Invariance.
Import ListNotations.
Open Scope R_scope.

(** ** finite sums *)
Lemma fold_ext {T} (l : list T) f g : (forall t, In t l -> f t = g t) ->
  fold_right Rplus 0 (map f l) = fold_right Rplus 0 (map g l).
Proof.
  induction l as [|t l IH]; intros H; [reflexivity|]. cbn. rewrite (H t) by (left; reflexivity). f_equal.
  apply IH. intros s Hs. apply H. right; exact Hs.
Qed.
Lemma total_ext n f g : (forall i, (i < n)%nat -> f i = g i) -> total n f = total n g.
Proof. intros H. apply fold_ext. intros i Hi. apply in_seq in Hi. apply H. lia. Qed.
Lemma fold_plus {T} (l : list T) f g :
  fold_right Rplus 0 (map (fun t => f t + g t) l) = fold_right Rplus 0 (map f l) + fold_right Rplus 0 (map g l).
Proof. induction l as [|t l IH]; cbn; [ring|]. rewrite IH. ring. Qed.
Lemma fold_scal {T} (l : list T) k f : fold_right Rplus 0 (map (fun t => k * f t) l) = k * fold_right Rplus 0 (map f l).
Proof. induction l as [|t l IH]; cbn; [ring|]. rewrite IH. ring. Qed.
Lemma fold_swap {T U} (l : list T) (m : list U) f :
  fold_right Rplus 0 (map (fun t => fold_right Rplus 0 (map (f t) m)) l)
  = fold_right Rplus 0 (map (fun u => fold_right Rplus 0 (map (fun t => f t u) l)) m).
Proof.
  induction l as [|t l IH]; cbn.
  - induction m as [|u m IHm]; cbn; [reflexivity|]. rewrite <- IHm. ring.
  - rewrite IH. rewrite <- fold_plus. reflexivity.
Qed.
Lemma total_scal n k f : total n (fun i => k * f i) = k * total n f.
Proof. apply fold_scal. Qed.
Lemma total_plus n f g : total n (fun i => f i + g i) = total n f + total n g.
Proof. apply fold_plus. Qed.
Lemma total_swap n m f : total n (fun i => total m (f i)) = total m (fun j => total n (fun i => f i j)).
Proof. apply fold_swap. Qed.
Lemma fold_single (l : list nat) m (f : nat -> R) : NoDup l -> In m l ->
  fold_right Rplus 0 (map f l) = f m + fold_right Rplus 0 (map (fun j => if (j =? m)%nat then 0 else f j) l).
Proof.
  induction l as [|j l IH]; intros N H; [destruct H|]. inversion N as [|? ? N1 N2]; subst. cbn. destruct (Nat.eqb_spec j m) as [->|E].
  - rewrite (fold_ext l (fun j => if (j =? m)%nat then 0 else f j) f); [ring|]. intros k Hk.
    destruct (Nat.eqb_spec k m) as [->|E]; [contradiction|reflexivity].
  - destruct H as [H|H]; [congruence|]. rewrite (IH N2 H). ring.
Qed.
Lemma total_single n m f : (m < n)%nat -> total n f = f m + total n (fun j => if (j =? m)%nat then 0 else f j).
Proof. intros H. apply fold_single; [apply seq_NoDup|]. apply in_seq. lia. Qed.
Lemma total_zero n f : (forall i, (i < n)%nat -> f i = 0) -> total n f = 0.
Proof. intros H. rewrite (total_ext n f (fun i => 0 * 0)) by (intros i Hi; rewrite (H i Hi); ring). rewrite (total_scal n 0 (fun _ => 0)). ring. Qed.

(** ** the kinetic energy of L z *)
Section Cholesky.
Variables (n : nat) (M L Minv : nat -> nat -> R).
Hypothesis chol : cholesky n M L.
Hypothesis inv : right_inverse n M Minv.
Definition times (z : nat -> R) : nat -> R := fun i => total n (fun j => L i j * z j).
Lemma times_injective u v : (forall i, (i < n)%nat -> times u i = times v i) -> forall i, (i < n)%nat -> u i = v i.
Proof.
  destruct chol as [Up [Diag _]]. intros H i. induction i as [i IH] using lt_wf_ind. intros Hi.
  specialize (H i Hi). unfold times in H. rewrite (total_single n i (fun j => L i j * u j)), (total_single n i (fun j => L i j * v j)) in H by exact Hi.
  assert (E : total n (fun j => if (j =? i)%nat then 0 else L i j * u j) = total n (fun j => if (j =? i)%nat then 0 else L i j * v j)).
  { apply total_ext. intros j Hj. destruct (Nat.eqb_spec j i) as [_|N]; [reflexivity|]. destruct (le_lt_dec i j).
    - rewrite Up by lia. ring.
    - rewrite IH by lia. reflexivity. }
  specialize (Diag i Hi). apply Rmult_eq_reg_l with (L i i); lra.
Qed.
Lemma quadratic_times z : quadratic n Minv (times z) = / 2 * total n (fun i => z i * z i).
Proof.
  destruct chol as [Up [Diag HM]].
  set (w := fun i => total n (fun j => Minv i j * times z j)).
  assert (W : forall i, (i < n)%nat -> times (fun k => total n (fun j => L j k * w j)) i = times z i).
  { intros i Hi. unfold times at 1.
    transitivity (total n (fun j => M i j * w j)).
    - rewrite (total_ext n _ (fun k => total n (fun j => L i k * L j k * w j))).
      + rewrite total_swap. apply total_ext. intros j Hj. rewrite (HM i j Hi Hj).
        rewrite (total_ext n _ (fun k => w j * (L i k * L j k))) by (intros; ring). rewrite total_scal. ring.
      + intros k Hk. rewrite <- total_scal. apply total_ext. intros; ring.
    - unfold w. rewrite (total_ext n _ (fun j => total n (fun k => M i j * Minv j k * times z k))).
      + rewrite total_swap. rewrite (total_ext n _ (fun k => (if Nat.eqb i k then 1 else 0) * times z k)).
        * rewrite (total_single n i) by exact Hi. rewrite Nat.eqb_refl. rewrite total_zero; [ring|].
          intros k Hk. destruct (Nat.eqb_spec k i); [reflexivity|]. destruct (Nat.eqb_spec i k); [congruence|ring].
        * intros k Hk. rewrite <- (inv i k Hi Hk).
          rewrite (total_ext n _ (fun j => times z k * (M i j * Minv j k))) by (intros; ring). rewrite total_scal. ring.
      + intros j Hj. rewrite <- total_scal. apply total_ext. intros; ring. }
  assert (V := times_injective _ _ W).
  unfold quadratic. f_equal. change (total n (fun i => times z i * w i) = total n (fun i => z i * z i)).
  rewrite (total_ext n _ (fun i => total n (fun k => z k * (L i k * w i)))).
  - rewrite total_swap. apply total_ext. intros k Hk. rewrite total_scal. rewrite (V k Hk). reflexivity.
  - intros i Hi. unfold times. rewrite Rmult_comm, <- total_scal. apply total_ext. intros; ring.
Qed.
End Cholesky.

(** ** phase space *)
Notation pos z := (fun i => z (inl i)) (only parsing).
Notation mom z := (fun i => z (inr i)) (only parsing).
Definition join (s : (nat -> R) * (nat -> R)) : nat + nat -> R := fun k => match k with inl i => fst s i | inr i => snd s i end.
Definition lift (f : (nat -> R) * (nat -> R) -> (nat -> R) * (nat -> R)) (z : nat + nat -> R) : nat + nat -> R := join (f (pos z, mom z)).
Lemma join_split z : join (pos z, mom z) = z.
Proof. apply functional_extensionality. intros [i|i]; reflexivity. Qed.
Lemma split_join s : (pos (join s), mom (join s)) = s.
Proof. destruct s as [x p]. reflexivity. Qed.
Lemma lift_comp f g z : lift (fun s => f (g s)) z = lift f (lift g z).
Proof. unfold lift. now rewrite split_join. Qed.
Lemma phase_nodup n : NoDup (phase n).
Proof.
  unfold phase. assert (I : forall (T U : Type) (f : T -> U) l, (forall a b, f a = f b -> a = b) -> NoDup l -> NoDup (map f l)).
  { intros T U f l F N. induction N; cbn; constructor; auto. intros K. apply in_map_iff in K. destruct K as [y [E Hy]]. apply F in E. now subst. }
  assert (Ap : forall (T : Type) (a b : list T), NoDup a -> NoDup b -> (forall x, In x a -> ~ In x b) -> NoDup (a ++ b)).
  { intros T a b Na Nb D. induction Na as [|x a Hx Na IH]; [exact Nb|]. cbn. constructor.
    - rewrite in_app_iff. intros [H|H]; [contradiction|]. apply (D x); [left; reflexivity|exact H].
    - apply IH. intros y Hy. apply D. right; exact Hy. }
  apply Ap.
  - apply I; [congruence|apply seq_NoDup].
  - apply I; [congruence|apply seq_NoDup].
  - intros x H K. apply in_map_iff in H. apply in_map_iff in K. destruct H as [a [<- _]], K as [b [E _]]. discriminate.
Qed.
Lemma in_phase_l n i : In (inl i) (phase n) <-> (i < n)%nat.
Proof.
  unfold phase. rewrite in_app_iff, !in_map_iff. split.
  - intros [[a [E H]]|[a [E H]]]; [|discriminate]. injection E as ->. apply in_seq in H. lia.
  - intros H. left. exists i. split; [reflexivity|]. apply in_seq. lia.
Qed.
Lemma in_phase_r n i : In (inr i) (phase n) <-> (i < n)%nat.
Proof.
  unfold phase. rewrite in_app_iff, !in_map_iff. split.
  - intros [[a [E H]]|[a [E H]]]; [discriminate|]. injection E as ->. apply in_seq in H. lia.
  - intros H. right. exists i. split; [reflexivity|]. apply in_seq. lia.
Qed.
Lemma cob_pos n g : continuous_coords (seq 0 n) g -> continuous_coords (phase n) (fun z => g (pos z)).
Proof.
  intros C B eps He. destruct (C B eps He) as [d [Hd H]]. exists d. split; [exact Hd|]. intros z w Hz Hw N.
  apply H; intros i Hi; [apply Hz|apply Hw|apply N]; apply in_phase_l; apply in_seq in Hi; lia.
Qed.
Lemma cob_mom n g : continuous_coords (seq 0 n) g -> continuous_coords (phase n) (fun z => g (mom z)).
Proof.
  intros C B eps He. destruct (C B eps He) as [d [Hd H]]. exists d. split; [exact Hd|]. intros z w Hz Hw N.
  apply H; intros i Hi; [apply Hz|apply Hw|apply N]; apply in_phase_r; apply in_seq in Hi; lia.
Qed.
Lemma cob_quadratic n Minv : continuous_coords (seq 0 n) (quadratic n Minv).
Proof.
  unfold quadratic. apply cob_mult; [apply cob_const|]. apply cob_sum. intros i Hi. apply cob_mult; [now apply cob_coord|].
  apply (cob_sum (seq 0 n) (seq 0 n)). intros j Hj. apply cob_mult; [apply cob_const|now apply cob_coord].
Qed.
Lemma is_derive_fold {T} (l : list T) (F : T -> R -> R) (F' : T -> R) t : (forall a, In a l -> is_derive (F a) t (F' a)) ->
  is_derive (fun t => fold_right Rplus 0 (map (fun a => F a t) l)) t (fold_right Rplus 0 (map F' l)).
Proof.
  induction l as [|a l IH]; intros H; cbn; [apply (is_derive_const 0)|].
  apply (is_derive_plus (F a) (fun t => fold_right Rplus 0 (map (fun a => F a t) l))).
  - apply H. left; reflexivity.
  - apply IH. intros b Hb. apply H. right; exact Hb.
Qed.
(** the gradient of the kinetic energy is linear in the momentum *)
Lemma cob_velocity n Minv velocity i : gradient_of (quadratic n Minv) velocity -> continuous_coords (seq 0 n) (fun p => velocity p i).
Proof.
  intros G. set (e := fun a => if (a =? i)%nat then 1 else 0).
  apply (cob_ext (seq 0 n) (fun p => / 2 * fold_right Rplus 0 (map (fun a => e a * fold_right Rplus 0 (map (fun b => Minv a b * p b) (seq 0 n))
    + p a * fold_right Rplus 0 (map (fun b => Minv a b * e b) (seq 0 n))) (seq 0 n)))).
  - intros p. symmetry. assert (D := G p i). apply is_derive_unique in D. rewrite <- D. apply is_derive_unique.
    unfold quadratic. set (q := fun t j => if (j =? i)%nat then t else p j).
    assert (Dq : forall a t, is_derive (fun t => q t a) t (e a)).
    { intros a t. unfold q, e. destruct (a =? i)%nat; [apply (is_derive_id t)|apply (is_derive_const (p a))]. }
    assert (Eq : q (p i) = p).
    { apply functional_extensionality. intros j. unfold q. destruct (Nat.eqb_spec j i); congruence. }
    apply (is_derive_scal (fun t => fold_right Rplus 0 (map (fun a => q t a * fold_right Rplus 0 (map (fun b => Minv a b * q t b) (seq 0 n))) (seq 0 n)))).
    apply (is_derive_fold (seq 0 n) (fun a t => q t a * fold_right Rplus 0 (map (fun b => Minv a b * q t b) (seq 0 n)))).
    intros a _.
    assert (Di : is_derive (fun t => fold_right Rplus 0 (map (fun b => Minv a b * q t b) (seq 0 n))) (p i) (fold_right Rplus 0 (map (fun b => Minv a b * e b) (seq 0 n)))).
    { apply (is_derive_fold (seq 0 n) (fun b t => Minv a b * q t b)). intros b _. apply (is_derive_scal (fun t => q t b)). apply Dq. }
    assert (Dp := is_derive_mult (fun t => q t a) _ (p i) _ _ (Dq a (p i)) Di Rmult_comm). cbn beta in Dp. rewrite Eq in Dp. exact Dp.
  - apply cob_mult; [apply cob_const|]. apply cob_sum. intros a Ha. apply cob_plus.
    + apply cob_mult; [apply cob_const|]. apply (cob_sum (seq 0 n) (seq 0 n)). intros b Hb. apply cob_mult; [apply cob_const|now apply cob_coord].
    + apply cob_mult; [now apply cob_coord|apply cob_const].
Qed.

Section Step.
Variables (n : nat) (velocity gradient : (nat -> R) -> (nat -> R)) (h : R).
Hypothesis cv : forall i, (i < n)%nat -> continuous_coords (seq 0 n) (fun p => velocity p i).
Hypothesis cg : forall i, (i < n)%nat -> continuous_coords (seq 0 n) (fun x => gradient x i).
Notation good S r := (bivol phase_dec (phase n) S r).
Lemma map_nodup {T} (f : nat -> T) : (forall a b, f a = f b -> a = b) -> NoDup (map f (seq 0 n)).
Proof.
  intros F. apply FinFun.Injective_map_NoDup; [exact F|apply seq_NoDup].
Qed.
Lemma upd_mom z i t : mom (set_coord phase_dec z (inl i) t) = mom z.
Proof. apply functional_extensionality. intros j. apply upd_other. discriminate. Qed.
Lemma upd_pos z i t : pos (set_coord phase_dec z (inr i) t) = pos z.
Proof. apply functional_extensionality. intros j. apply upd_other. discriminate. Qed.
Lemma good_drift : good (lift (apply_move velocity gradient h Drift)) 1.
Proof.
  replace 1 with (Rabs 1 ^ length (map (@inl nat nat) (seq 0 n))) by (rewrite Rabs_R1; apply pow1).
  apply (bivol_ext phase_dec (phase n) (block phase_dec (map inl (seq 0 n)) 1 (fun k z => match k with inl i => h * velocity (mom z) i | inr _ => 0 end))).
  - intros z [i|i] Hi; unfold block, lift, apply_move, join; cbn [fst snd].
    + destruct (in_dec phase_dec (inl i) (map inl (seq 0 n))) as [_|Q].
      * unfold vadd, vscale. ring.
      * exfalso. apply Q. apply in_map. apply in_phase_l in Hi. apply in_seq. lia.
    + destruct (in_dec phase_dec (inr i) (map inl (seq 0 n))) as [Q|_]; [|reflexivity]. apply in_map_iff in Q. destruct Q as [a [E _]]. discriminate.
  - apply bivol_block.
    + apply phase_nodup.
    + apply map_nodup. congruence.
    + intros k Hk. apply in_or_app. left; exact Hk.
    + lra.
    + intros k Hk. apply in_map_iff in Hk. destruct Hk as [i [<- Hi]]. apply cob_mult; [apply cob_const|].
      apply (cob_mom n (fun p => velocity p i)). apply cv. apply in_seq in Hi. lia.
    + intros i j z t Hi Hj. apply in_map_iff in Hj. destruct Hj as [b [<- _]]. destruct i as [i|i]; [|reflexivity]. now rewrite upd_mom.
Qed.
Lemma good_kick c : good (lift (apply_move velocity gradient h (Kick c))) 1.
Proof.
  replace 1 with (Rabs 1 ^ length (map (@inr nat nat) (seq 0 n))) by (rewrite Rabs_R1; apply pow1).
  apply (bivol_ext phase_dec (phase n) (block phase_dec (map inr (seq 0 n)) 1 (fun k z => match k with inr i => - (h * c) * gradient (pos z) i | inl _ => 0 end))).
  - intros z [i|i] Hi; unfold block, lift, apply_move, join; cbn [fst snd].
    + destruct (in_dec phase_dec (inl i) (map inr (seq 0 n))) as [Q|_]; [|reflexivity]. apply in_map_iff in Q. destruct Q as [a [E _]]. discriminate.
    + destruct (in_dec phase_dec (inr i) (map inr (seq 0 n))) as [_|Q].
      * unfold vadd, vneg, vscale. ring.
      * exfalso. apply Q. apply in_map. apply in_phase_r in Hi. apply in_seq. lia.
  - apply bivol_block.
    + apply phase_nodup.
    + apply map_nodup. congruence.
    + intros k Hk. apply in_or_app. right; exact Hk.
    + lra.
    + intros k Hk. apply in_map_iff in Hk. destruct Hk as [i [<- Hi]]. apply cob_mult; [apply cob_const|].
      apply (cob_pos n (fun p => gradient p i)). apply cg. apply in_seq in Hi. lia.
    + intros i j z t Hi Hj. apply in_map_iff in Hj. destruct Hj as [b [<- _]]. destruct i as [i|i]; [reflexivity|]. now rewrite upd_pos.
Qed.
Lemma good_flip : good (lift flip) 1.
Proof.
  replace 1 with (Rabs (-1) ^ length (map (@inr nat nat) (seq 0 n))) by (rewrite Rabs_left by lra; replace (- (-1)) with 1 by ring; apply pow1).
  apply (bivol_ext phase_dec (phase n) (block phase_dec (map inr (seq 0 n)) (-1) (fun k z => 0))).
  - intros z [i|i] Hi; unfold block, lift, flip, join; cbn [fst snd].
    + destruct (in_dec phase_dec (inl i) (map inr (seq 0 n))) as [Q|_]; [|reflexivity]. apply in_map_iff in Q. destruct Q as [a [E _]]. discriminate.
    + destruct (in_dec phase_dec (inr i) (map inr (seq 0 n))) as [_|Q].
      * unfold vneg. ring.
      * exfalso. apply Q. apply in_map. apply in_phase_r in Hi. apply in_seq. lia.
  - apply bivol_block.
    + apply phase_nodup.
    + apply map_nodup. congruence.
    + intros k Hk. apply in_or_app. right; exact Hk.
    + lra.
    + intros k Hk. apply cob_const.
    + reflexivity.
Qed.
Lemma good_moves ms : good (lift (moves velocity gradient h ms)) 1.
Proof.
  induction ms as [|m ms IH].
  - apply (bivol_ext phase_dec (phase n) (fun z => z)); [|apply bivol_id]. intros z i _. unfold lift, moves. cbn. now rewrite join_split.
  - apply (bivol_ext phase_dec (phase n) (fun z => lift (moves velocity gradient h ms) (lift (apply_move velocity gradient h m) z))).
    + intros z i _. rewrite <- lift_comp. reflexivity.
    + replace 1 with (1 * 1) by ring. apply bivol_comp; [exact IH|]. destruct m; [apply good_drift|apply good_kick].
Qed.
End Step.

(** ** from independent normals to the momentum *)
Section Pullback.
Variables (n : nat) (M L : nat -> nat -> R).
Hypothesis chol : cholesky n M L.
Notation good S r := (bivol phase_dec (phase n) S r).
Definition partial_times (m : nat) (z : nat + nat -> R) : nat + nat -> R :=
  fun k => match k with inl i => z (inl i) | inr i => if (i <? m)%nat then times n L (mom z) i else z (inr i) end.
Definition rest (m : nat) (z : nat + nat -> R) : R := total n (fun j => if (j =? m)%nat then 0 else L m j * z (inr j)).
Lemma partial_times_S m z : (m < n)%nat ->
  agree (phase n) (partial_times m (elem phase_dec (inr m) (L m m) (rest m) z)) (partial_times (S m) z).
Proof.
  destruct chol as [Up [Diag _]]. intros Hm. intros [i|i] Hi; unfold partial_times.
  - unfold elem. now rewrite upd_other by discriminate.
  - apply in_phase_r in Hi. destruct (Nat.ltb_spec i m) as [H|H].
    + destruct (Nat.ltb_spec i (S m)); [|lia]. unfold times. apply total_ext. intros j Hj. unfold elem.
      destruct (Nat.eq_dec j m) as [->|N].
      * rewrite (Up i m H). ring.
      * now rewrite upd_other by congruence.
    + destruct (Nat.ltb_spec i (S m)) as [H'|H'].
      * assert (i = m) as -> by lia. unfold elem. rewrite upd_same. unfold times, rest. now rewrite (total_single n m (fun j => L m j * z (inr j))) by exact Hm.
      * unfold elem. rewrite upd_other; [reflexivity|]. intros E. injection E as ->. lia.
Qed.
Lemma good_partial m : (m <= n)%nat -> exists r, 0 < r /\ good (partial_times m) r.
Proof.
  destruct chol as [Up [Diag _]]. induction m as [|m IH]; intros Hm.
  - exists 1. split; [lra|]. apply (bivol_ext phase_dec (phase n) (fun z => z)); [|apply bivol_id]. intros z [i|i] _; reflexivity.
  - destruct (IH ltac:(lia)) as [r [Pr G]]. assert (D := Diag m ltac:(lia)). exists (r * Rabs (L m m)). split.
    + apply Rmult_lt_0_compat; [exact Pr|]. apply Rabs_pos_lt. lra.
    + apply (bivol_ext phase_dec (phase n) (fun z => partial_times m (elem phase_dec (inr m) (L m m) (rest m) z))).
      * intros z. apply partial_times_S. lia.
      * apply bivol_comp; [exact G|]. apply bivol_elem.
        -- apply phase_nodup.
        -- apply in_phase_r. lia.
        -- lra.
        -- unfold rest, total. apply cob_sum. intros j Hj. destruct (j =? m)%nat; [apply cob_const|].
           apply cob_mult; [apply cob_const|]. apply cob_coord. apply in_phase_r. apply in_seq in Hj. lia.
        -- intros z t. unfold rest. apply total_ext. intros j Hj. destruct (Nat.eqb_spec j m); [reflexivity|]. now rewrite upd_other by congruence.
Qed.
Lemma good_times : exists r, 0 < r /\ good (fun z => join (pos z, times n L (mom z))) r.
Proof.
  destruct (good_partial n (le_n n)) as [r [Pr G]]. exists r. split; [exact Pr|]. apply (bivol_ext phase_dec (phase n) (partial_times n)); [|exact G].
  intros z [i|i] Hi; unfold partial_times, join; cbn [fst snd]; [reflexivity|]. apply in_phase_r in Hi. destruct (Nat.ltb_spec i n); [reflexivity|lia].
Qed.
End Pullback.

(** ** one step *)
Lemma RInt_accept (a b e : R) (g : R -> R) : 0 <= e -> (forall u, 0 < u < 1 -> g u = if Rlt_dec u e then a else b) ->
  RInt g 0 1 = Rmin 1 e * a + (1 - Rmin 1 e) * b.
Proof.
  intros He H. set (al := Rmin 1 e). assert (Ha : 0 <= al <= 1) by (unfold al; split; [apply Rmin_glb; lra|apply Rmin_l]).
  assert (I1 : is_RInt g 0 al (scal (al - 0) a)).
  { apply (is_RInt_ext (fun _ => a)); [|apply (is_RInt_const (V := R_NormedModule))]. intros u. rewrite Rmin_left, Rmax_right by lra. intros Hu.
    rewrite H by lra. destruct (Rlt_dec u e) as [_|N]; [reflexivity|]. assert (al <= e) by apply Rmin_r. lra. }
  assert (I2 : is_RInt g al 1 (scal (1 - al) b)).
  { apply (is_RInt_ext (fun _ => b)); [|apply (is_RInt_const (V := R_NormedModule))]. intros u. rewrite Rmin_left, Rmax_right by lra. intros Hu.
    rewrite H by lra. destruct (Rlt_dec u e) as [N|_]; [|reflexivity]. exfalso. unfold al, Rmin in Hu. destruct (Rle_dec 1 e); lra. }
  assert (I := is_RInt_Chasles g 0 al 1 _ _ I1 I2). apply (is_RInt_unique (V := R_CompleteNormedModule)) in I. rewrite I.
  unfold plus, scal; cbn; unfold mult; cbn. ring.
Qed.

Section Kernel.
Variables (n : nat) (M L Minv : nat -> nat -> R) (velocity gradient : (nat -> R) -> (nat -> R)) (h : R) (k : nat) (logpdf : (nat -> R) -> X).
Hypothesis chol : cholesky n M L.
Hypothesis inv : right_inverse n M Minv.
Hypothesis grad : gradient_of (quadratic n Minv) velocity.
Hypothesis odd : forall p, velocity (vneg p) = vneg (velocity p).
Hypothesis even : forall p, quadratic n Minv (vneg p) = quadratic n Minv p.
Hypothesis cg : forall i, (i < n)%nat -> continuous_coords (seq 0 n) (fun x => gradient x i).
Hypothesis fin : forall x, fin_or_ninf (logpdf x).
Hypothesis cont : continuous_coords (seq 0 n) (fun x => wexp (logpdf x)).
Definition next (x p : nat -> R) (u : R) : nat -> R :=
  fst (fst (hmc_kernel velocity gradient h k logpdf (fun p => Fin (quadratic n Minv p)) (fun _ => p) (fun _ => u) (Seed 0) x (logpdf x))).
Let T (s : (nat -> R) * (nat -> R)) := moves velocity gradient h (schedule_moves k) s.
Let Phi : (nat + nat -> R) -> (nat + nat -> R) := lift (fun s => flip (T s)).
Lemma phi_phi z : Phi (Phi z) = z.
Proof.
  unfold Phi, T. rewrite <- lift_comp. unfold lift. rewrite <- (schedule_rev k) at 1.
  rewrite (moves_flip velocity gradient h odd), flip_flip. apply join_split.
Qed.
Lemma good_phi : bivol phase_dec (phase n) Phi 1.
Proof.
  apply (bivol_ext phase_dec (phase n) (fun z => lift flip (lift (moves velocity gradient h (schedule_moves k)) z))).
  - intros z i _. rewrite <- lift_comp. reflexivity.
  - replace 1 with (1 * 1) by ring. apply bivol_comp; [apply good_flip|]. apply good_moves; [|exact cg].
    intros i _. now apply (cob_velocity n Minv).
Qed.
Definition rho (z : nat + nat -> R) : R := wexp (logpdf (pos z)) * exp (- quadratic n Minv (mom z)).
Lemma wexp_nonneg a : 0 <= wexp a.
Proof. destruct a; cbn; try lra. apply Rlt_le, exp_pos. Qed.
Lemma rho_nonneg z : 0 <= rho z.
Proof. apply Rmult_le_pos; [apply wexp_nonneg|apply Rlt_le, exp_pos]. Qed.
Lemma rho_cob : continuous_coords (phase n) rho.
Proof.
  apply cob_mult; [apply (cob_pos n (fun x => wexp (logpdf x))), cont|].
  apply (cob_mom n (fun p => exp (- quadratic n Minv p))). apply (cob_comp (seq 0 n) exp).
  - intros t. apply (ex_derive_continuous (V := R_NormedModule)). auto_derive. exact I.
  - apply cob_opp, cob_quadratic.
Qed.
Lemma pos_phi z : pos (Phi z) = fst (leapfrog_step velocity gradient h k (pos z) (mom z)).
Proof. rewrite leapfrog_moves. reflexivity. Qed.
Lemma mom_phi z : mom (Phi z) = vneg (snd (leapfrog_step velocity gradient h k (pos z) (mom z))).
Proof. rewrite leapfrog_moves. reflexivity. Qed.
(** the expected value of a function after the step *)
Lemma step_mean f z :
  rho z * RInt (fun u => f (next (pos z) (mom z) u)) 0 1
  = Rmin (rho z) (rho (Phi z)) * f (pos (Phi z)) + (rho z - Rmin (rho z) (rho (Phi z))) * f (pos z).
Proof.
  assert (P := fin (pos z)). assert (P' := fin (pos (Phi z))).
  destruct (logpdf (pos z)) as [a| | |] eqn:Ea; try contradiction.
  2:{ assert (R0 : rho z = 0) by (unfold rho; rewrite Ea; cbn; ring). rewrite R0. rewrite Rmin_left by apply rho_nonneg. ring. }
  assert (Rz : rho z = exp a * exp (- quadratic n Minv (mom z))) by (unfold rho; rewrite Ea; reflexivity).
  set (K := quadratic n Minv (mom z)) in *.
  set (e := match logpdf (pos (Phi z)) with Fin b => exp ((K - a) - (quadratic n Minv (mom (Phi z)) - b)) | _ => 0 end).
  assert (Ee : rho z * e = rho (Phi z)).
  { unfold e, rho at 2. rewrite Rz. destruct (logpdf (pos (Phi z))) as [b| | |]; try contradiction; cbn [wexp].
    - rewrite <- !exp_plus. f_equal. unfold K. ring.
    - ring. }
  assert (He : 0 <= e). { unfold e. destruct (logpdf (pos (Phi z))); try lra. apply Rlt_le, exp_pos. }
  rewrite (RInt_accept (f (pos (Phi z))) (f (pos z)) e).
  - assert (Rp : 0 < rho z) by (rewrite Rz; apply Rmult_lt_0_compat; apply exp_pos).
    assert (Em : rho z * Rmin 1 e = Rmin (rho z) (rho (Phi z))).
    { rewrite <- Ee. unfold Rmin. destruct (Rle_dec 1 e) as [H|H], (Rle_dec (rho z) (rho z * e)) as [H'|H']; try ring.
      - exfalso. apply H'. rewrite <- (Rmult_1_r (rho z)) at 1. apply Rmult_le_compat_l; lra.
      - exfalso. apply H. apply Rmult_le_reg_l with (rho z); lra. }
    rewrite <- Em. ring.
  - exact He.
  - intros u Hu.
    assert (Q : next (pos z) (mom z) u = if Rlt_dec u e then pos (Phi z) else pos z).
    { unfold next, hmc_kernel. cbn [split2]. rewrite Ea.
      assert (E1 := pos_phi z). assert (E2 := mom_phi z).
      destruct (leapfrog_step velocity gradient h k (pos z) (mom z)) as [x' p']. cbn [fst snd] in *.
      assert (Kp : quadratic n Minv (mom (Phi z)) = quadratic n Minv p') by (rewrite E2; apply even).
      unfold e. rewrite Kp. clear e Ee He. rewrite E1 in *. fold K.
      rewrite xln_pos by lra. destruct (logpdf x') as [b| | |]; try contradiction; cbn [xopp xadd xsub xltb].
      - destruct (Rlt_dec (ln u) (- a + K + - (- b + quadratic n Minv p'))) as [H|H], (Rlt_dec u (exp (K - a - (quadratic n Minv p' - b)))) as [H'|H']; try reflexivity.
        + exfalso. apply H'. rewrite <- (exp_ln u) by lra. apply exp_increasing. lra.
        + exfalso. apply H. rewrite <- (ln_exp (- a + K + - (- b + quadratic n Minv p'))). apply ln_increasing; [lra|].
          replace (- a + K + - (- b + quadratic n Minv p')) with (K - a - (quadratic n Minv p' - b)) by ring. exact H'.
      - destruct (Rlt_dec u 0); [lra|reflexivity]. }
    rewrite Q. destruct (Rlt_dec u e); reflexivity.
Qed.
Lemma step_symmetric f g : (forall x, 0 <= f x) -> (forall x, 0 <= g x) ->
  continuous_coords (seq 0 n) f -> continuous_coords (seq 0 n) g ->
  integral phase_dec (phase n) (fun z => rho z * g (pos z) * RInt (fun u => f (next (pos z) (mom z) u)) 0 1)
  = integral phase_dec (phase n) (fun z => rho z * f (pos z) * RInt (fun u => g (next (pos z) (mom z) u)) 0 1).
Proof.
  intros Pf Pg Cf Cg.
  set (m := fun z => Rmin (rho z) (rho (Phi z))).
  assert (Pm : forall z, 0 <= m z <= rho z).
  { intros z. split; [apply Rmin_glb; apply rho_nonneg|apply Rmin_l]. }
  assert (V := good_phi).
  assert (CP : forall G, continuous_coords (phase n) G -> continuous_coords (phase n) (fun z => G (Phi z))) by (apply (vol_cob _ _ _ _ (proj1 V))).
  assert (Cm : continuous_coords (phase n) m) by (apply cob_min; [apply rho_cob|apply CP, rho_cob]).
  set (A := fun z => m z * (f (pos z) * g (pos (Phi z)))).
  set (B := fun z => (rho z - m z) * (g (pos z) * f (pos z))).
  assert (CA : continuous_coords (phase n) A).
  { apply cob_mult; [exact Cm|]. apply cob_mult; [now apply cob_pos|]. apply (CP (fun z => g (pos z))). now apply cob_pos. }
  assert (CB : continuous_coords (phase n) B).
  { apply cob_mult; [apply cob_minus; [apply rho_cob|exact Cm]|]. apply cob_mult; now apply cob_pos. }
  assert (PA : forall z, 0 <= A z) by (intros z; apply Rmult_le_pos; [apply Pm|apply Rmult_le_pos; auto]).
  assert (PB : forall z, 0 <= B z) by (intros z; apply Rmult_le_pos; [specialize (Pm z); lra|apply Rmult_le_pos; auto]).
  assert (Nd := phase_nodup n).
  transitivity (integral phase_dec (phase n) (fun z => A (Phi z) + B z)).
  - apply integral_ext. intros z. rewrite (Rmult_comm (rho z)), Rmult_assoc, (step_mean f z). fold (m z).
    unfold A, B, m. rewrite phi_phi. rewrite (Rmin_comm (rho (Phi z))). ring.
  - rewrite (integral_plus phase_dec (phase n) Nd (fun z => A (Phi z)) B); auto.
    rewrite (integral_vol1 phase_dec (phase n) Nd Phi A); auto.
    rewrite <- (integral_plus phase_dec (phase n) Nd A B); auto.
    apply integral_ext. intros z. rewrite (Rmult_comm (rho z) (f _)), Rmult_assoc, (step_mean g z). fold (m z). unfold A, B. ring.
Qed.
(** the same with the momentum drawn as L z from independent normals *)
Lemma step_symmetric_normals c f g : 0 <= c -> (forall x, 0 <= f x) -> (forall x, 0 <= g x) ->
  continuous_coords (seq 0 n) f -> continuous_coords (seq 0 n) g ->
  integral phase_dec (phase n) (fun w => c * (rho (join (pos w, times n L (mom w))) * g (pos w) * RInt (fun u => f (next (pos w) (times n L (mom w)) u)) 0 1))
  = integral phase_dec (phase n) (fun w => c * (rho (join (pos w, times n L (mom w))) * f (pos w) * RInt (fun u => g (next (pos w) (times n L (mom w)) u)) 0 1)).
Proof.
  intros Hc Pf Pg Cf Cg. destruct (good_times n M L chol) as [r [Pr V]].
  assert (Cc : continuous_coords (seq 0 n) (fun _ => c * 1)) by apply cob_const.
  assert (Cfc : continuous_coords (seq 0 n) (fun x => c * f x)) by (apply cob_mult; [apply cob_const|exact Cf]).
  assert (Nd := phase_nodup n).
  assert (Key : forall f g, (forall x, 0 <= f x) -> (forall x, 0 <= g x) -> continuous_coords (seq 0 n) f -> continuous_coords (seq 0 n) g ->
    let H := fun z => c * (rho z * g (pos z) * RInt (fun u => f (next (pos z) (mom z) u)) 0 1) in
    (forall z, 0 <= H z) /\ continuous_coords (phase n) H).
  { clear f g Pf Pg Cf Cg Cfc. intros f g Pf Pg Cf Cg H.
    assert (E : forall z, H z = c * (g (pos z) * (Rmin (rho z) (rho (Phi z)) * f (pos (Phi z)) + (rho z - Rmin (rho z) (rho (Phi z))) * f (pos z)))).
    { intros z. unfold H. rewrite <- step_mean. ring. }
    split.
    - intros z. rewrite E. assert (Pm : 0 <= Rmin (rho z) (rho (Phi z)) <= rho z) by (split; [apply Rmin_glb; apply rho_nonneg|apply Rmin_l]).
      apply Rmult_le_pos; [exact Hc|]. apply Rmult_le_pos; [apply Pg|]. apply Rplus_le_le_0_compat; apply Rmult_le_pos; auto; lra.
    - apply (cob_ext _ _ _ (fun z => eq_sym (E z))).
      assert (CP : forall G, continuous_coords (phase n) G -> continuous_coords (phase n) (fun z => G (Phi z))) by (apply (vol_cob _ _ _ _ (proj1 good_phi))).
      assert (Cm : continuous_coords (phase n) (fun z => Rmin (rho z) (rho (Phi z)))) by (apply cob_min; [apply rho_cob|apply CP, rho_cob]).
      apply cob_mult; [apply cob_const|]. apply cob_mult; [now apply cob_pos|]. apply cob_plus; apply cob_mult.
      + exact Cm.
      + apply (CP (fun z => f (pos z))). now apply cob_pos.
      + apply cob_minus; [apply rho_cob|exact Cm].
      + now apply cob_pos. }
  destruct (Key f g Pf Pg Cf Cg) as [P1 C1]. destruct (Key g f Pg Pf Cg Cf) as [P2 C2].
  assert (E1 := integral_vol phase_dec (phase n) Nd _ r _ V P1 C1). cbn beta in E1.
  assert (E2 := integral_vol phase_dec (phase n) Nd _ r _ V P2 C2). cbn beta in E2.
  cbn [join fst snd] in E1, E2.
  etransitivity; [exact E1|]. etransitivity; [|symmetry; exact E2]. f_equal.
  assert (S := step_symmetric (fun x => c * f x) g (fun x => Rmult_le_pos _ _ Hc (Pf x)) Pg Cfc Cg).
  etransitivity; [|etransitivity; [exact S|]].
  - apply integral_ext. intros z.
    transitivity (c * (g (pos z) * (rho z * RInt (fun u => f (next (pos z) (mom z) u)) 0 1))); [ring|]. rewrite step_mean.
    transitivity (g (pos z) * (rho z * RInt (fun u => c * f (next (pos z) (mom z) u)) 0 1)); [|ring].
    rewrite (step_mean (fun x => c * f x)). ring.
  - apply integral_ext. intros z. ring.
Qed.
End Kernel.
