From Coq Require Import String Reals Lra Lia List Bool Arith.
From Verif Require Import Model_X Spec_X Proofs_X Model_Guru Model_Mass Proofs_MassGrid Model_PPD Spec_PPD Proofs_PPD Proofs_Guru.
Import ListNotations.
Open Scope R_scope.

Lemma distinct_NoDup l : distinct l = true <-> NoDup l.
Proof.
  induction l as [|x l IH]; simpl.
  - split; auto. constructor.
  - rewrite andb_true_iff, negb_true_iff, IH. split.
    + intros (H & Hn). constructor; auto. intros Hin. apply Bool.not_true_iff_false in H. apply H.
      apply existsb_exists. exists x. split; auto. apply String.eqb_refl.
    + intros H. inversion H as [|? ? Hx Hn]; subst. split; auto. apply Bool.not_true_iff_false. intros He.
      apply existsb_exists in He as (y & Hy & E). apply String.eqb_eq in E. subst. contradiction.
Qed.

Lemma split_nth {A} (l : list A) k a : nth_error l k = Some a ->
  l = firstn k l ++ a :: skipn (S k) l /\ length (firstn k l) = k.
Proof.
  revert l. induction k as [|k IH]; intros [|x l] H; simpl in *; try discriminate.
  - inversion H. auto.
  - destruct (IH l H) as (E & L). split; [f_equal; exact E|now rewrite L].
Qed.

Lemma nth_error_marginals t domains k : (k < length (t_shape t))%nat ->
  nth_error (get_all_marginals t domains) k = Some (compute_marginal_probs t k domains).
Proof.
  intros H. unfold get_all_marginals. rewrite nth_error_map.
  rewrite (nth_error_nth' _ 0%nat) by (now rewrite seq_length). rewrite seq_nth by exact H. reflexivity.
Qed.

Lemma nth_error_combine' {A B} (l : list A) (m : list B) k a b :
  nth_error l k = Some a -> nth_error m k = Some b -> nth_error (combine l m) k = Some (a, b).
Proof.
  revert l m. induction k as [|k IH]; intros [|x l] [|y m] H1 H2; simpl in *; try discriminate.
  - congruence.
  - auto.
Qed.

Lemma map_fst_combine' {A B} (l : list A) (m : list B) : (length l <= length m)%nat -> map fst (combine l m) = l.
Proof.
  revert m. induction l as [|x l IH]; intros [|y m] H; simpl in *; auto; [lia|]. f_equal. apply IH. lia.
Qed.

Lemma file_is density samples (domains : list domain) headers constants mapping :
  List.Forall (fun d : domain => (1 <= snd d)%nat) domains ->
  let t := prob_tensor density samples domains constants mapping in
  compute_and_save_ppd density samples domains headers constants mapping
  = if Nat.eqb (length domains) (length headers)
    then if distinct headers
         then Some (mkppd domains headers (mean_last t) (combine headers (get_all_marginals t domains)))
         else None
    else None.
Proof.
  intros Hd t.
  change (compute_and_save_ppd density samples domains headers constants mapping)
    with (save_probs (mean_last t) (get_all_marginals t domains) domains headers).
  unfold save_probs, t. rewrite ppd_shape by exact Hd. rewrite map_length, Nat.eqb_refl. cbn [negb].
  unfold domain in *. destruct (Nat.eqb_spec (length domains) (length headers)) as [E|E]; cbn [negb]; [|reflexivity].
  rewrite map_fst_combine'; [reflexivity|]. unfold get_all_marginals. rewrite map_length, seq_length, prob_tensor_shape by exact Hd.
  rewrite app_length, map_length. cbn [length]. unfold domain in *. lia.
Qed.

(** C97: what compute_and_save_ppd writes.  For every model density, every posterior sample table
    and every grid (at least one point per axis), with one distinct header per axis, the file holds
    - the posterior predictive density: at each grid point the mean, over the samples, of the
      model's density there;
    - under header k, for each grid value of axis k and each sample, the model's density integrated
      (iterated trapezoidal rule) over the grid of all other axes. *)
Theorem C97_file_contents : forall density samples domains headers constants mapping,
  List.Forall (fun d : domain => (1 <= snd d)%nat) domains ->
  length headers = length domains -> NoDup headers -> samples <> [] ->
  exists file,
    compute_and_save_ppd density samples domains headers constants mapping = Some file
    /\ f_domains file = domains /\ f_headers file = headers
    /\ t_shape (f_ppd file) = map snd domains
    /\ (forall idx, in_range domains idx ->
          t_at (f_ppd file) idx
          = mean (map (fun row => density_of density constants mapping row (point_at domains idx)) samples))
    /\ (forall k d h, nth_error domains k = Some d -> nth_error headers k = Some h ->
          exists t, nth_error (f_marginals file) k = Some (h, t)
            /\ t_shape t = [snd d; length samples]
            /\ forall j s row, (j < snd d)%nat -> nth_error samples s = Some row ->
                 t_at t [j; s]
                 = integral (firstn k domains ++ skipn (S k) domains)
                     (fun p => density_of density constants mapping row
                                 (firstn k p ++ grid_point d j :: skipn k p))).
Proof.
  intros density samples domains headers constants mapping Hd Hl Hn Hs.
  rewrite file_is by exact Hd. rewrite Hl, Nat.eqb_refl. rewrite (proj2 (distinct_NoDup headers) Hn).
  set (t := prob_tensor density samples domains constants mapping).
  eexists; split; [reflexivity|]. cbn [f_domains f_headers f_ppd f_marginals].
  split; [reflexivity|]. split; [reflexivity|]. split; [|split].
  - unfold t. now rewrite ppd_shape.
  - intros idx Hi. now apply ppd_at.
  - intros k d h Hk Hh. exists (compute_marginal_probs t k domains).
    assert (Hkl : (k < length domains)%nat) by (apply nth_error_Some; congruence).
    destruct (split_nth _ _ _ Hk) as (E & L).
    assert (Hsh : t_shape t = map d_points domains ++ [length samples]) by (now apply prob_tensor_shape).
    split; [|split].
    + apply nth_error_combine'; auto. apply nth_error_marginals. rewrite Hsh, app_length, map_length. lia.
    + rewrite E in Hsh.
      destruct (marginal_at (firstn k domains) d (skipn (S k) domains) t [length samples] 0 [] Hsh) as (H & _).
      rewrite L, <- E in H. exact H.
    + intros j s row Hj Hrow.
      assert (Hsl : (s < length samples)%nat) by (apply nth_error_Some; congruence).
      pose proof (sample_marginal density samples domains constants mapping Hd
                   (firstn k domains) d (skipn (S k) domains) j s E Hj Hsl) as H.
      rewrite L in H. fold t in H. rewrite H. rewrite (nth_error_nth _ _ _ Hrow). reflexivity.
Qed.
Print Assumptions C97_file_contents.

(** nothing is written exactly when the headers do not match the axes in number or repeat *)
Theorem C97_refused_iff : forall density samples domains headers constants mapping,
  List.Forall (fun d : domain => (1 <= snd d)%nat) domains ->
  (compute_and_save_ppd density samples domains headers constants mapping = None
   <-> length headers <> length domains \/ ~ NoDup headers).
Proof.
  intros density samples domains headers constants mapping Hd. rewrite file_is by exact Hd.
  destruct (Nat.eqb_spec (length domains) (length headers)) as [E|E].
  - destruct (distinct headers) eqn:D.
    + apply distinct_NoDup in D. split; [discriminate|]. intros [H|H]; [congruence|contradiction].
    + split; auto. intros _. right. intros H. apply distinct_NoDup in H. congruence.
  - split; auto.
Qed.
Print Assumptions C97_refused_iff.

(** two axes, two samples, density 1 + a x0 + x1 with a read from column 0 of the sample *)
Example C97_nonvacuous :
  let density := fun (ps : list (string * R)) (p : list R) =>
    match ps, p with
    | (_, a) :: _, [x0; x1] => 1 + a * x0 + x1
    | _, _ => 0
    end in
  exists file,
    compute_and_save_ppd density [[2]; [4]] [(0, 1, 2%nat); (0, 2, 3%nat)] ["x"; "y"]%string [] [("a"%string, 0%nat)]
    = Some file
    /\ t_at (f_ppd file) [1%nat; 2%nat] = 6
    /\ exists t, nth_error (f_marginals file) 0 = Some ("x"%string, t) /\ t_at t [1%nat; 1%nat] = 12.
Proof.
  intros density.
  destruct (C97_file_contents density [[2]; [4]] [(0, 1, 2%nat); (0, 2, 3%nat)] ["x"; "y"]%string [] [("a"%string, 0%nat)])
    as (file & E & _ & _ & _ & Hp & Hm).
  - repeat constructor.
  - reflexivity.
  - repeat constructor; simpl; intuition discriminate.
  - discriminate.
  - exists file. split; [exact E|]. split.
    + rewrite Hp by (repeat constructor; simpl; lia).
      unfold mean, density_of, density, point_at, grid_point. simpl. lra.
    + destruct (Hm 0%nat _ _ eq_refl eq_refl) as (t & Ht & _ & Hv). exists t. split; [exact Ht|].
      rewrite (Hv 1%nat 1%nat [4] ltac:(simpl; lia) eq_refl).
      unfold integral, rule, density_of, density, grid_point. simpl. lra.
Qed.

(** C98: what is plotted from the file is consistent.  For each axis k the curve "PPD" that
    ppd_plot draws (the marginal of the stored predictive density) is the mean over the samples of
    the stored marginal. *)
Theorem C98_marginals_agree : forall density samples domains headers constants mapping file,
  List.Forall (fun d : domain => (1 <= snd d)%nat) domains -> samples <> [] ->
  compute_and_save_ppd density samples domains headers constants mapping = Some file ->
  forall k d h t j, nth_error domains k = Some d -> nth_error (f_marginals file) k = Some (h, t) ->
    (j < snd d)%nat ->
    exists m, nth_error (get_all_marginals (f_ppd file) (f_domains file)) k = Some m
      /\ t_shape m = [snd d]
      /\ t_at m [j] = mean (map (fun s => t_at t [j; s]) (seq 0 (length samples))).
Proof.
  intros density samples domains headers constants mapping file Hd Hs Hf k d h t j Hk Ht Hj.
  rewrite file_is in Hf by exact Hd. revert Hf.
  destruct (Nat.eqb_spec (length domains) (length headers)) as [El|]; [|discriminate].
  destruct (distinct headers) eqn:Hdist; [|discriminate]. intros Hf. inversion Hf as [Hfile]; clear Hf. subst file.
  cbn [f_domains f_headers f_ppd f_marginals] in *.
  set (T := prob_tensor density samples domains constants mapping) in *.
  assert (Hkl : (k < length domains)%nat) by (apply nth_error_Some; congruence).
  assert (Hsh : t_shape T = map d_points domains ++ [length samples]) by (now apply prob_tensor_shape).
  destruct (nth_error headers k) as [h'|] eqn:Hh.
  2:{ apply nth_error_None in Hh. lia. }
  rewrite (nth_error_combine' _ _ _ _ _ Hh (nth_error_marginals T domains k
     ltac:(rewrite Hsh, app_length, map_length; lia))) in Ht.
  inversion Ht; subst h' t. clear Ht.
  destruct (split_nth _ _ _ Hk) as (E & L).
  assert (Hps : t_shape (mean_last T) = map d_points domains) by (now apply ppd_shape).
  exists (compute_marginal_probs (mean_last T) k domains). split; [|split].
  - apply nth_error_marginals. rewrite Hps, map_length. exact Hkl.
  - assert (Hps' := Hps). rewrite E, <- app_nil_r in Hps'.
    destruct (marginal_at (firstn k domains) d (skipn (S k) domains) (mean_last T) [] 0 [] Hps') as (H & _).
    rewrite L, <- E in H. exact H.
  - pose proof (ppd_marginal density samples domains constants mapping Hd
                  (firstn k domains) d (skipn (S k) domains) j E Hj) as H.
    rewrite L in H. fold T in H. rewrite H. clear H. unfold mean. rewrite map_length, seq_length.
    destruct (integral_linear (firstn k domains ++ skipn (S k) domains)) as (_ & Hsc & He).
    rewrite (He _ (fun p => / INR (length samples) *
        rsum (map (fun row => density_of density constants mapping row (insert_at k (grid_point d j) p)) samples))).
    2:{ intros p. rewrite map_length. unfold Rdiv. ring. }
    rewrite Hsc. unfold Rdiv. rewrite Rmult_comm. f_equal.
    rewrite <- (rsum_swap _ (integral_linear (firstn k domains ++ skipn (S k) domains)) samples
                 (fun row p => density_of density constants mapping row (insert_at k (grid_point d j) p))).
    rewrite <- rsum_samples. f_equal. apply map_ext_in. intros s Hsin. apply in_seq in Hsin.
    pose proof (sample_marginal density samples domains constants mapping Hd
                   (firstn k domains) d (skipn (S k) domains) j s E Hj ltac:(lia)) as H.
    rewrite L in H. fold T in H. symmetry. exact H.
Qed.
Print Assumptions C98_marginals_agree.

(** integrating a stored marginal over its own grid gives, for every axis, the same number: the
    model's density integrated over the whole grid *)
Theorem C98_same_total : forall density samples domains headers constants mapping file,
  List.Forall (fun d : domain => (1 <= snd d)%nat) domains ->
  compute_and_save_ppd density samples domains headers constants mapping = Some file ->
  forall k d h t s row, nth_error domains k = Some d -> nth_error (f_marginals file) k = Some (h, t) ->
    nth_error samples s = Some row ->
    trapezoid (linspace (fst (fst d)) (snd (fst d)) (snd d)) (map (fun j => t_at t [j; s]) (seq 0 (snd d)))
    = integral domains (density_of density constants mapping row).
Proof.
  intros density samples domains headers constants mapping file Hd Hf k d h t s row Hk Ht Hrow.
  assert (Hsl : (s < length samples)%nat) by (apply nth_error_Some; congruence).
  assert (Hs : samples <> []) by (intros ->; simpl in Hsl; lia).
  assert (Hok : length headers = length domains /\ NoDup headers).
  { rewrite file_is in Hf by exact Hd. revert Hf.
    destruct (Nat.eqb_spec (length domains) (length headers)); [|discriminate].
    destruct (distinct headers) eqn:D; [|discriminate]. split; auto. now apply distinct_NoDup. }
  destruct Hok as (Hl & Hn).
  destruct (C97_file_contents density samples domains headers constants mapping Hd Hl Hn Hs)
    as (file' & Ef & _ & _ & _ & _ & Hm).
  rewrite Hf in Ef. inversion Ef; subst file'.
  assert (Hkl : (k < length headers)%nat) by (rewrite Hl; apply nth_error_Some; congruence).
  destruct (nth_error headers k) as [h'|] eqn:Hh; [|apply nth_error_None in Hh; lia].
  destruct (Hm k d h' Hk Hh) as (t' & Ht' & _ & Hv). rewrite Ht in Ht'. inversion Ht'; subst h' t'.
  destruct (split_nth _ _ _ Hk) as (E & L).
  rewrite E at 1. rewrite <- integral_insert. rewrite rule_trap. f_equal. apply map_ext_in.
  intros j Hj. apply in_seq in Hj. rewrite (Hv j s row) by (auto; unfold d_points in Hj; lia). rewrite L. reflexivity.
Qed.
Print Assumptions C98_same_total.

Example C98_nonvacuous :
  let density := fun (ps : list (string * R)) (p : list R) =>
    match ps, p with
    | (_, a) :: _, [x0; x1] => 1 + a * x0 + x1
    | _, _ => 0
    end in
  let run := compute_and_save_ppd density [[2]; [4]] [(0, 1, 2%nat); (0, 2, 3%nat)] ["x"; "y"]%string [] [("a"%string, 0%nat)] in
  (exists file, run = Some file)
  /\ integral [(0, 1, 2%nat); (0, 2, 3%nat)] (density_of density [] [("a"%string, 0%nat)] [4]) = 8.
Proof.
  split.
  - destruct (C97_nonvacuous) as (file & E & _). exists file. exact E.
  - unfold integral, rule, density_of, grid_point. simpl. lra.
Qed.

(** C99: ppd_ranges orders the ranges as the parameters *)
Lemma set_range {A} (rs : list A) i a k : (i < length rs)%nat ->
  nth_error (firstn i rs ++ a :: skipn (S i) rs) k = if Nat.eqb k i then Some a else nth_error rs k.
Proof.
  revert i k. induction rs as [|x rs IH]; intros i k Hi; [simpl in Hi; lia|].
  destruct i as [|i]; destruct k as [|k]; simpl; auto. rewrite <- (IH i k) by (simpl in Hi; lia). reflexivity.
Qed.

Lemma ranges_step parameters ranges p :
  ppd_ranges parameters (ranges ++ [p])
  = match ppd_ranges parameters ranges with
    | None => None
    | Some rs => match index_of parameters (fst p) with
                 | None => None
                 | Some i => Some (firstn i rs ++ Some (snd p) :: skipn (S i) rs)
                 end
    end.
Proof. unfold ppd_ranges. rewrite fold_left_app. reflexivity. Qed.

(** each parameter has the range last given for it, at the parameter's own position *)
Theorem C99_ranges_in_parameter_order : forall parameters ranges,
  NoDup parameters -> List.Forall (fun p => In (fst p) parameters) ranges ->
  exists rs, ppd_ranges parameters ranges = Some rs
    /\ length rs = length parameters
    /\ forall i name, nth_error parameters i = Some name ->
         nth_error rs i = Some (last_range ranges name).
Proof.
  intros parameters ranges Hn. induction ranges as [|p ranges IH] using rev_ind; intros H.
  - exists (map (fun _ => None) parameters). split; [reflexivity|]. split; [apply map_length|].
    intros i name Hi. rewrite nth_error_map, Hi. reflexivity.
  - apply Forall_app in H as (H1 & H2). inversion H2 as [|? ? Hp _]; subst.
    destruct (IH H1) as (rs & E & L & V). rewrite ranges_step, E.
    destruct (index_of_In _ _ Hp) as (i & Hi). rewrite Hi.
    assert (Hil : (i < length rs)%nat) by (rewrite L; apply nth_error_Some; rewrite (index_of_nth _ _ _ Hi); discriminate).
    eexists; split; [reflexivity|]. split.
    + rewrite app_length, firstn_length. cbn [length]. rewrite skipn_length. lia.
    + intros k name Hk. rewrite set_range by exact Hil. unfold last_range. rewrite rev_unit. cbn [find].
      destruct (Nat.eqb_spec k i) as [->|Hki].
      * rewrite (index_of_nth _ _ _ Hi) in Hk. inversion Hk; subst. rewrite String.eqb_refl. reflexivity.
      * destruct (String.eqb_spec (fst p) name) as [En|_].
        -- exfalso. apply Hki. subst name. apply (nth_index_of _ _ _ Hn) in Hk. congruence.
        -- apply V. exact Hk.
Qed.
Print Assumptions C99_ranges_in_parameter_order.

(** refused exactly when some range names no parameter *)
Theorem C99_unknown_refused : forall parameters ranges,
  NoDup parameters ->
  (ppd_ranges parameters ranges = None <-> exists p, In p ranges /\ ~ In (fst p) parameters).
Proof.
  intros parameters ranges Hn. split.
  - intros H. destruct (Forall_Exists_dec (fun p => In (fst p) parameters)
      (fun p => in_dec string_dec (fst p) parameters) ranges) as [F|F].
    + destruct (C99_ranges_in_parameter_order parameters ranges Hn F) as (rs & E & _). congruence.
    + apply Exists_exists in F. exact F.
  - intros (p & Hp & Hx). clear Hn. induction ranges as [|q ranges IH] using rev_ind; [destruct Hp|].
    rewrite ranges_step. apply in_app_or in Hp as [Hp|[->|[]]].
    + rewrite IH by exact Hp. reflexivity.
    + destruct (ppd_ranges parameters ranges); auto. destruct (index_of parameters (fst p)) eqn:E; auto.
      exfalso. apply Hx. apply index_of_nth in E. eapply nth_error_In; eauto.
Qed.
Print Assumptions C99_unknown_refused.

(** the full claim "an accepted call yields a range for every parameter" fails: a parameter without
    a range is accepted and its place stays empty (None) *)
Theorem C99_every_parameter_refuted :
  ~ (forall parameters ranges rs, NoDup parameters -> ppd_ranges parameters ranges = Some rs ->
       forall i name, nth_error parameters i = Some name -> exists d, nth_error rs i = Some (Some d)).
Proof.
  intros H. destruct (H ["m1"; "z"]%string [("z"%string, (0, 1, 10%nat))] _
     ltac:(repeat constructor; simpl; intuition discriminate) eq_refl 0%nat "m1"%string eq_refl) as (d & Hd).
  discriminate.
Qed.
Print Assumptions C99_every_parameter_refuted.

Example C99_nonvacuous :
  ppd_ranges ["m1"; "m2"; "z"]%string
    [("z"%string, (0, 1, 10%nat)); ("m1"%string, (5, 90, 20%nat)); ("m2"%string, (5, 80, 30%nat)); ("z"%string, (0, 2, 40%nat))]
  = Some [Some (5, 90, 20%nat); Some (5, 80, 30%nat); Some (0, 2, 40%nat)].
Proof. reflexivity. Qed.
