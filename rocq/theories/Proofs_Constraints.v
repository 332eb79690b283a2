From Coq Require Import Reals Lra Lia List Bool.
From Verif Require Import Model_X Model_Joint Spec_Joint Model_Constraints Spec_Constraints Proofs_X Proofs_Joint.
Import ListNotations.
Open Scope R_scope.

Ltac xdes := repeat match goal with
  | H : context [Rlt_dec ?a ?b] |- _ => destruct (Rlt_dec a b)
  | |- context [Rlt_dec ?a ?b] => destruct (Rlt_dec a b)
  | H : context [Rle_dec ?a ?b] |- _ => destruct (Rle_dec a b)
  | |- context [Rle_dec ?a ?b] => destruct (Rle_dec a b)
  end.

Lemma xleb_trans a b c : xleb a b = true -> xleb b c = true -> xleb a c = true.
Proof. destruct a, b, c; simpl; intros; xdes; try congruence; try lra. Qed.
Lemma xltb_trans a b c : xltb a b = true -> xltb b c = true -> xltb a c = true.
Proof. destruct a, b, c; simpl; intros; xdes; try congruence; try lra. Qed.
Lemma xleb_fin a b : xleb (Fin a) (Fin b) = true <-> a <= b.
Proof. simpl. xdes; split; intros; auto; try congruence; lra. Qed.
Lemma xltb_fin a b : xltb (Fin a) (Fin b) = true <-> a < b.
Proof. simpl. xdes; split; intros; auto; try congruence; lra. Qed.

Lemma firstn_pred_cons {A} (a b : A) l : firstn (length (a :: b :: l) - 1) (a :: b :: l)
  = a :: firstn (length (b :: l) - 1) (b :: l).
Proof. simpl length. replace (S (S (length l)) - 1)%nat with (S (length l)) by lia.
  cbn [firstn]. f_equal. f_equal. lia. Qed.

Lemma adjacent_cons cmp a b l : adjacent cmp (a :: b :: l) = cmp b a && adjacent cmp (b :: l).
Proof. unfold adjacent. rewrite firstn_pred_cons. cbn [tl]. destruct l; reflexivity. Qed.

Theorem adjacent_pairwise cmp x :
  (forall a b c, cmp b a = true -> cmp c b = true -> cmp c a = true) ->
  (adjacent cmp x = true <-> pairwise (fun a b => cmp b a) x).
Proof.
  intros Htr. induction x as [|a [|b l] IH].
  - split; auto. intros _ i j H. simpl in H. lia.
  - split; auto. intros _ i j H. simpl in H. lia.
  - rewrite adjacent_cons, andb_true_iff, IH. clear IH. split.
    + intros [Hab Hp] i j [Hij Hj]. destruct j as [|j]; [lia|]. simpl in Hj.
      destruct i as [|i].
      * destruct j as [|j]; [exact Hab|].
        apply Htr with b; auto. apply (Hp 0%nat (S j)). simpl; lia.
      * apply (Hp i j). simpl; lia.
    + intros H. split.
      * apply (H 0%nat 1%nat). simpl; lia.
      * intros i j Hij. apply (H (S i) (S j)). simpl in *; lia.
Qed.

Lemma increasing_iff x : increasing_vector x = true <-> pairwise xleb x.
Proof. apply (adjacent_pairwise xgeb). unfold xgeb. intros; eapply xleb_trans; eauto. Qed.
Lemma strictly_increasing_iff x : strictly_increasing_vector x = true <-> pairwise xltb x.
Proof. apply (adjacent_pairwise xgtb). unfold xgtb. intros; eapply xltb_trans; eauto. Qed.
Lemma decreasing_iff x : decreasing_vector x = true <-> pairwise (fun a b => xleb b a) x.
Proof. apply (adjacent_pairwise xleb). intros; eapply xleb_trans; eauto. Qed.
Lemma strictly_decreasing_iff x : strictly_decreasing_vector x = true <-> pairwise (fun a b => xltb b a) x.
Proof. apply (adjacent_pairwise xltb). intros; eapply xltb_trans; eauto. Qed.

Lemma positive_iff x : positive_vector x = true <-> forall a, In a x -> xltb (Fin 0) a = true.
Proof. apply forallb_forall. Qed.

Lemma nth_ones n i : (i < n)%nat -> nth i (ones n) NaN = Fin 1.
Proof. unfold ones. revert i; induction n; intros [|i] H; simpl; auto; try lia. apply IHn; lia. Qed.
Lemma nth_map_in {A} (f : A -> X) (l : list A) d i : (i < length l)%nat -> nth i (map f l) NaN = f (nth i l d).
Proof. revert i. induction l; intros [|i] H; simpl in *; auto; try lia. apply IHl; lia. Qed.
Lemma nth_up n i : (i < n)%nat -> nth i (arange_up n) NaN = Fin (INR (S i)).
Proof. intros. unfold arange_up. rewrite (nth_map_in _ _ 0%nat) by (rewrite seq_length; auto).
  rewrite seq_nth by auto. reflexivity. Qed.
Lemma nth_down n i : (i < n)%nat -> nth i (arange_down n) NaN = Fin (INR (n - i)).
Proof. intros. unfold arange_down. rewrite (nth_map_in _ _ 0%nat) by (rewrite seq_length; auto).
  rewrite seq_nth by auto. reflexivity. Qed.

Lemma feasible_vectors n :
  increasing_vector (ones n) = true /\ decreasing_vector (ones n) = true
  /\ strictly_increasing_vector (arange_up n) = true /\ strictly_decreasing_vector (arange_down n) = true
  /\ positive_increasing_vector (ones n) = true /\ positive_decreasing_vector (ones n) = true.
Proof.
  assert (Hi : increasing_vector (ones n) = true).
  { apply increasing_iff. intros i j H. unfold ones in H. rewrite repeat_length in H.
    rewrite !nth_ones by lia. apply xleb_fin. lra. }
  assert (Hd : decreasing_vector (ones n) = true).
  { apply decreasing_iff. intros i j H. unfold ones in H. rewrite repeat_length in H.
    rewrite !nth_ones by lia. apply xleb_fin. lra. }
  assert (Hp : positive_vector (ones n) = true).
  { apply positive_iff. intros a Ha. apply repeat_spec in Ha. subst. apply xltb_fin. lra. }
  repeat split; auto.
  - apply strictly_increasing_iff. intros i j H. unfold arange_up in H. rewrite map_length, seq_length in H.
    rewrite !nth_up by lia. apply xltb_fin. apply lt_INR. lia.
  - apply strictly_decreasing_iff. intros i j H. unfold arange_down in H. rewrite map_length, seq_length in H.
    rewrite !nth_down by lia. apply xltb_fin. apply lt_INR. lia.
  - unfold positive_increasing_vector. now rewrite Hi, Hp.
  - unfold positive_decreasing_vector. now rewrite Hd, Hp.
Qed.

(** C44 *)
Lemma sandwich_region mmin mmax m1 m2 :
  mass_sandwich (Fin mmin) (Fin mmax) (Fin m1) (Fin m2) = true
  <-> 0 < mmin /\ mmin <= m2 <= m1 /\ m1 <= mmax.
Proof. unfold mass_sandwich. rewrite !andb_true_iff, xltb_fin, !xleb_fin. tauto. Qed.

Lemma ratio_sandwich_region mmin mmax m1 q :
  mass_ratio_mass_sandwich (Fin mmin) (Fin mmax) (Fin m1) (Fin q) = true
  <-> 0 < mmin /\ mmin <= m1 <= mmax /\ mmin / m1 <= q <= 1.
Proof.
  unfold mass_ratio_mass_sandwich. rewrite xmul_fin.
  rewrite !andb_true_iff, xltb_fin, !xleb_fin. split.
  - intros [[[H0 H1] H2] H3]. assert (0 < m1) by lra. split; auto. split; [lra|]. split.
    + apply Rmult_le_reg_l with m1; auto. replace (m1 * (mmin / m1)) with mmin by (field; lra). lra.
    + nra.
  - intros (H0 & [H1 H2] & H3 & H4). assert (0 < m1) by lra.
    assert (mmin <= m1 * q).
    { replace mmin with (m1 * (mmin / m1)) by (field; lra). apply Rmult_le_compat_l; lra. }
    repeat split; auto. nra.
Qed.

Lemma sandwich_ratio_equiv mmin mmax m1 q :
  mass_ratio_mass_sandwich mmin mmax m1 q = mass_sandwich mmin mmax m1 (xmul m1 q).
Proof. reflexivity. Qed.

Lemma sandwich_feasible mmin mmax : 0 < mmin <= mmax ->
  (let '(m1, m2) := mass_sandwich_feasible (Fin mmin) (Fin mmax) in
   mass_sandwich (Fin mmin) (Fin mmax) m1 m2 = true) /\
  (let '(m1, q) := mass_ratio_feasible (Fin mmin) (Fin mmax) in
   mass_ratio_mass_sandwich (Fin mmin) (Fin mmax) m1 q = true).
Proof.
  intros H. split.
  - unfold mass_sandwich_feasible. cbn [xadd xmul]. apply sandwich_region. lra.
  - unfold mass_ratio_feasible. cbn [xadd]. rewrite xmul_fin.
    set (m1 := (mmin + mmax) * (1/2)). assert (Hm : mmin <= m1 <= mmax) by (unfold m1; lra).
    rewrite xdiv_fin by lra.
    assert (Hq : 0 < mmin / m1 <= 1).
    { split; [apply Rdiv_lt_0_compat; lra|]. apply Rmult_le_reg_l with m1; [lra|].
      replace (m1 * (mmin / m1)) with mmin by (field; lra). lra. }
    unfold xclip01, xltb. destruct (Rlt_dec (mmin / m1) 0); [lra|]. destruct (Rlt_dec 1 (mmin / m1)); [lra|].
    apply ratio_sandwich_region. lra.
Qed.

(** C45 *)
Section Composite.
Context {B T : Type}.
Variable basic_check : B -> list X -> bool.
Variable basic_eq : B -> B -> bool.
Variable codomain_check : T -> list X -> bool.
Variable t_inv : T -> list X -> list X.
Variable t_eq : T -> T -> bool.
Local Notation chk := (check basic_check codomain_check t_inv).
Local Notation ceq := (con_eq basic_eq t_eq).

Section ConInd.
Variable P : con B T -> Prop.
Hypothesis HB : forall b, P (Basic b).
Hypothesis HA : forall cs sl, Forall P cs -> P (All cs sl).
Hypothesis HY : forall cs, Forall P cs -> P (Any cs).
Hypothesis HT : forall b ts, P b -> P (Transformed b ts).
Fixpoint con_ind' (c : con B T) : P c :=
  let fix go l : Forall P l :=
      match l with [] => Forall_nil _ | x :: t => Forall_cons _ (con_ind' x) (go t) end in
  match c with
  | Basic b => HB b
  | All cs sl => HA cs sl (go cs)
  | Any cs => HY cs (go cs)
  | Transformed b ts => HT b ts (con_ind' b)
  end.
End ConInd.

Fixpoint zip_eq (l1 l2 : list (con B T)) : bool :=
  match l1, l2 with a :: l1', b :: l2' => ceq a b && zip_eq l1' l2' | _, _ => true end.
Lemma ceq_all cs1 s1 cs2 s2 : ceq (All cs1 s1) (All cs2 s2) = zip_eq cs1 cs2.
Proof.
  cbn [con_eq]. revert cs2. induction cs1 as [|a cs1 IH]; intros [|b cs2]; simpl; auto.

Qed.
Lemma ceq_any cs1 cs2 : ceq (Any cs1) (Any cs2) = zip_eq cs1 cs2.
Proof.
  cbn [con_eq]. revert cs2. induction cs1 as [|a cs1 IH]; intros [|b cs2]; simpl; auto.

Qed.

Hypothesis basic_sound : forall a b, basic_eq a b = true -> forall x, basic_check a x = basic_check b x.
Hypothesis t_sound : forall a b, t_eq a b = true ->
  forall x, codomain_check a x = codomain_check b x /\ t_inv a x = t_inv b x.

Lemma fold_rev_eq t1 : forall t2 s, length t1 = length t2 ->
  forallb (fun p => t_eq (fst p) (snd p)) (combine t1 t2) = true ->
  fold_left (fun (s : bool * list X) t => (fst s && codomain_check t (snd s), t_inv t (snd s))) (rev t1) s
  = fold_left (fun (s : bool * list X) t => (fst s && codomain_check t (snd s), t_inv t (snd s))) (rev t2) s.
Proof.
  induction t1 as [|a t1 IH]; intros [|b t2] s Hl H; try discriminate; auto.
  simpl in *. apply andb_true_iff in H as [Hab H]. injection Hl as Hl.
  rewrite !fold_left_app. rewrite (IH t2) by auto. simpl.
  destruct (t_sound a b Hab (snd (fold_left (fun (s : bool * list X) t => (fst s && codomain_check t (snd s), t_inv t (snd s))) (rev t2) s))) as [-> ->].
  reflexivity.
Qed.

Theorem con_eq_sound c1 : forall c2, same_layout c1 c2 -> ceq c1 c2 = true -> forall x, chk c1 x = chk c2 x.
Proof.
  induction c1 as [b|cs1 sl IH|cs1 IH|base ts IH] using con_ind'; intros c2 HL E x; inversion HL; subst.
  - now apply basic_sound.
  - rewrite ceq_all in E. cbn [check].
    generalize true as acc.
    clear HL. revert cs2 sl H2 E. induction IH as [|a cs1 Ha Hcs IHcs]; intros cs2 sl HF E acc; inversion HF; subst; auto.
    destruct sl as [|s sl]; auto. simpl in E. apply andb_true_iff in E as [E1 E2].
    simpl. rewrite (Ha y) by auto. apply IHcs; auto.
  - rewrite ceq_any in E. cbn [check].
    generalize false as acc. clear HL. revert cs2 H0 E.
    induction IH as [|a cs1 Ha Hcs IHcs]; intros cs2 HF E acc; inversion HF; subst; auto.
    simpl in E. apply andb_true_iff in E as [E1 E2].
    simpl. rewrite (Ha y) by auto. apply IHcs; auto.
  - cbn [con_eq] in E. destruct (Nat.eqb_spec (length ts) (length t2)) as [Hl|]; [|discriminate].
    apply andb_true_iff in E as [E1 E2]. cbn [check].
    rewrite (fold_rev_eq ts t2) by auto.
    destruct (fold_left _ (rev t2) (true, x)) as [mask y]. f_equal. now apply IH.
Qed.
End Composite.

(** feasible_like of composites *)
Section Feasible.
Context {B T : Type}.
Variable basic_check : B -> list X -> bool.
Variable basic_feasible : B -> list X -> list X.
Variable codomain_check : T -> list X -> bool.
Variable t_inv t_fwd : T -> list X -> list X.
Variable bsize : B -> nat.
Variable domain_check : T -> list X -> bool.
Local Notation chk := (check basic_check codomain_check t_inv).
Local Notation fea := (feasible basic_feasible t_fwd).
Hypothesis basic_ok : forall b x, length x = bsize b ->
  length (basic_feasible b x) = bsize b /\ basic_check b (basic_feasible b x) = true.
Hypothesis t_ok : forall t x, domain_check t x = true ->
  length (t_fwd t x) = length x /\ codomain_check t (t_fwd t x) = true /\ t_inv t (t_fwd t x) = x.

Lemma take_slice_piece s pre p post :
  length p = width s ->
  take_slice (pre ++ p ++ post) (hd (At 0) (laid_out (length pre) [s])) = p.
Proof.
  destruct s as [n|]; simpl; intros Hp.
  - unfold dyn_slice. rewrite !app_length. replace (length pre + n - length pre)%nat with n by lia.
    rewrite Nat.min_l by lia. rewrite skipn_app, skipn_all, Nat.sub_diag. cbn [app skipn].
    rewrite firstn_app, <- Hp, firstn_all, Nat.sub_diag. simpl. apply app_nil_r.
  - unfold dyn_index. rewrite !app_length. destruct p as [|a [|]]; try discriminate. simpl length.
    rewrite Nat.min_l by lia. rewrite app_nth2 by lia. rewrite Nat.sub_diag. reflexivity.
Qed.

Lemma take_slice_length s k (x : list X) :
  (k + width s <= length x)%nat -> length (take_slice x (hd (At 0) (laid_out k [s]))) = width s.
Proof.
  destruct s as [n|]; simpl; intros H; auto. unfold dyn_slice.
  rewrite firstn_length, skipn_length. lia.
Qed.

Lemma laid_out_cons k s l : laid_out k (s :: l) = hd (At 0) (laid_out k [s]) :: laid_out (k + width s) l.
Proof. destruct s; reflexivity. Qed.

Lemma push_through ts : forall y, in_domains domain_check t_fwd ts y ->
  length (fold_left (fun fl t => t_fwd t fl) ts y) = length y /\
  fold_left (fun (s : bool * list X) t => (fst s && codomain_check t (snd s), t_inv t (snd s)))
            (rev ts) (true, fold_left (fun fl t => t_fwd t fl) ts y) = (true, y).
Proof.
  induction ts as [|t ts IH]; intros y H; [auto|].
  destruct H as [Hd H]. simpl. destruct (IH _ H) as [Hl E]. rewrite fold_left_app, E.
  destruct (t_ok t y Hd) as (L & C & I). simpl. rewrite C, I. split; auto. congruence.
Qed.

Theorem feasible_accepted c : forall n x,
  constrains bsize domain_check t_fwd chk c n -> length x = n ->
  length (fea c x) = n /\ chk c (fea c x) = true.
Proof.
  induction c as [b|cs sl IH|cs IH|base ts IH] using con_ind'; intros n x HC Hx; inversion HC; subst.
  - now apply basic_ok.
  - cbn [check feasible].
    match goal with H : Forall2 _ _ _ |- _ => rename H into HF end.
    assert (G : forall k pre acc, length pre = k ->
      (k + fold_right Nat.add 0%nat (map width shapes) <= length x)%nat ->
      let fv := List.concat (map (fun p : (list X -> list X) * slice => fst p (take_slice x (snd p)))
                     (combine (map (fun c' => fea c') cs) (laid_out k shapes))) in
      length fv = fold_right Nat.add 0%nat (map width shapes) /\
      fold_left (fun acc (p : (list X -> bool) * slice) => acc && fst p (take_slice (pre ++ fv) (snd p)))
                (combine (map (fun c' => chk c') cs) (laid_out k shapes)) acc = acc).
    { clear -HF IH basic_ok t_ok. induction HF as [|c s cs shapes Hcs HF IHF]; intros k pre acc Hpre Hlen; [auto|].
      inversion IH as [|? ? Hc IH']; subst. rewrite laid_out_cons. cbn [map combine List.concat fst snd fold_left fold_right] in *.
      set (piece := fea c (take_slice x (hd (At 0) (laid_out (length pre) [s])))).
      destruct (Hc (width s) (take_slice x (hd (At 0) (laid_out (length pre) [s]))) Hcs) as [Lp Cp].
      { apply take_slice_length. lia. }
      fold piece in Lp, Cp.
      destruct (IHF IH' (length pre + width s)%nat (pre ++ piece) acc) as [Lr Er].
      { rewrite app_length. lia. } { lia. }
      split.
      + rewrite app_length, Lp. f_equal. exact Lr.
      + rewrite take_slice_piece by exact Lp. rewrite Cp, andb_true_r.
        rewrite app_assoc. exact Er. }
    destruct (G 0%nat [] true eq_refl) as [L E]; [lia|]. split; [exact L|exact E].
  - destruct cs as [|c cs]; [congruence|]. cbn [check feasible map hd fold_left].
    inversion IH as [|? ? Hc IH']; subst.
    match goal with H : Forall _ (c :: cs) |- _ => inversion H; subst end.
    destruct (Hc (length x) x) as [L E]; auto. split; auto. rewrite E. simpl.
    clear. induction cs; simpl; auto.
  - destruct (IH (length x) x) as [L E]; auto. cbn [check feasible].
    destruct (push_through ts (fea base x)) as [L2 E2]; auto.
    rewrite E2. split; [congruence|]. simpl. exact E.
Qed.
End Feasible.
