(** C150: the networks of the training script. *)
From Coq Require Import String List ZArith Reals Lia Lra.
From Verif Require Import Model_Train Props_Train Model_Network Spec_Network.
Import ListNotations.
Open Scope R_scope.

Lemma apply_length l s x : has_size l s -> List.length (apply_linear l x) = fst s.
Proof. intros (H1 & H2 & _). unfold apply_linear. rewrite map_length, combine_length. lia. Qed.
Lemma forward_length act ls : forall sizes x, Forall2 has_size ls sizes -> ls <> [] ->
  List.length (forward act ls x) = fst (last sizes (0, 0)%nat).
Proof.
  induction ls as [|l t IH]; intros sizes x H N; [congruence|]. inversion H as [|? s ? st Hl Ht]; subst.
  destruct t as [|l' t].
  - inversion Ht; subst. cbn. now apply apply_length.
  - inversion Ht as [|? s' ? st' Hl' Ht']; subst. change (forward act (l :: l' :: t) x) with (forward act (l' :: t) (map act (apply_linear l x))).
    rewrite (IH (s' :: st') _ Ht) by discriminate. reflexivity.
Qed.
Lemma forall2_length {A B} (P : A -> B -> Prop) l l' : Forall2 P l l' -> List.length l = List.length l'.
Proof. induction 1; cbn; congruence. Qed.
Lemma last_cons {A} (a : A) l d : l <> [] -> last (a :: l) d = last l d.
Proof. now destruct l. Qed.

(** depth + 1 layers, and out_size outputs; the number of weights and biases *)
Theorem C150_shape : forall (m : network) i o w d,
  Forall2 has_size (layers m) (layer_sizes i o w d) ->
  List.length (layers m) = S d /\ (forall x, List.length (trained m x) = o)
  /\ fold_right (fun s n => fst s * snd s + fst s + n)%nat 0%nat (layer_sizes i o w d)
     = match d with O => o * i + o | S k => (w * i + w) + k * (w * w + w) + (o * w + o) end%nat.
Proof.
  intros m i o w d H. split; [|split].
  - rewrite (forall2_length _ _ _ H). destruct d; cbn; [reflexivity|]. rewrite app_length, repeat_length. cbn. lia.
  - intros x. unfold trained. rewrite (forward_length relu _ _ x H).
    + destruct d; [reflexivity|]. unfold layer_sizes. rewrite last_cons by (destruct (repeat (w, w) d); discriminate). now rewrite last_last.
    + intros E. rewrite E in H. destruct d; inversion H.
  - destruct d as [|k]; [cbn [layer_sizes fold_right fst snd]; ring|]. cbn [layer_sizes fold_right fst snd]. clear.
    induction k as [|k IH]; cbn [repeat app fold_right fst snd] in *; [ring|].
    set (T := fold_right _ _ _) in *. rewrite Nat.mul_succ_l. lia.
Qed.
Print Assumptions C150_shape.

Lemma within_cons e a b x y : within e (a :: x) (b :: y) -> Rabs (a - b) <= e /\ within e x y.
Proof. intros [L H]. split; [exact (H 0%nat)|]. split; [cbn in L; lia|]. intros k. exact (H (S k)). Qed.
Lemma within_pos e x y : within e x y -> 0 <= e.
Proof. intros [_ H]. eapply Rle_trans; [apply Rabs_pos|exact (H 0%nat)]. Qed.
Lemma dot_within e w : forall x y, within e x y -> Rabs (dot w x - dot w y) <= fold_right (fun a s => Rabs a + s) 0 w * e.
Proof.
  induction w as [|a w IH]; intros x y H; pose proof (within_pos _ _ _ H) as P.
  - cbn. rewrite Rminus_0_r, Rabs_R0. lra.
  - destruct x as [|u x], y as [|v y]; try (destruct H as [L _]; discriminate).
    + unfold dot. cbn [combine map fold_right]. rewrite Rminus_0_r, Rabs_R0. apply Rmult_le_pos; [|exact P].
      clear. assert (Q : forall l, 0 <= fold_right (fun a s => Rabs a + s) 0 l) by (induction l as [|b l IH]; cbn; [lra|pose proof (Rabs_pos b); lra]).
      exact (Q (a :: w)).
    + apply within_cons in H. destruct H as [Ha H]. specialize (IH x y H). unfold dot in *. cbn [combine map fold_right fst snd].
      set (A := fold_right Rplus 0 _) in *. set (B := fold_right Rplus 0 (map _ (combine w y))) in *. set (S := fold_right _ 0 w) in *.
      replace (a * u + A - (a * v + B)) with (a * (u - v) + (A - B)) by ring.
      eapply Rle_trans; [apply Rabs_triang|]. rewrite Rabs_mult, Rmult_plus_distr_r.
      apply Rplus_le_compat; [|exact IH]. apply Rmult_le_compat_l; [apply Rabs_pos|exact Ha].
Qed.
Lemma linear_within g e x y : forall W b, gain_at_most (W, b) g -> within e x y -> within (g * e) (apply_linear (W, b) x) (apply_linear (W, b) y).
Proof.
  intros W b [G0 G] H. pose proof (within_pos _ _ _ H) as P. unfold apply_linear. cbn [fst snd] in *.
  split; [now rewrite !map_length|]. revert b. induction W as [|w W IH]; intros [|c b] k; cbn [combine map];
    try (destruct k; cbn [nth]; rewrite Rminus_0_r, Rabs_R0; now apply Rmult_le_pos).
  destruct k as [|k]; cbn [nth].
  - cbn [fst snd]. replace (dot w x + c - (dot w y + c)) with (dot w x - dot w y) by ring.
    eapply Rle_trans; [exact (dot_within e w x y H)|]. apply Rmult_le_compat_r; [exact P|]. apply G. now left.
  - apply IH. intros w' Hw. apply G. now right.
Qed.
Lemma relu_within e x y : within e x y -> within e (map relu x) (map relu y).
Proof.
  intros [L H]. split; [now rewrite !map_length|]. intros k. specialize (H k).
  replace 0 with (relu 0) by (unfold relu; apply Rmax_left; lra). rewrite !map_nth. unfold relu, Rmax.
  repeat destruct Rle_dec; unfold Rabs in *; repeat destruct Rcase_abs; lra.
Qed.

(** the prediction is continuous: inputs that differ by at most e in each coordinate give outputs that differ by at most
    e times the gains of the layers *)
Theorem C150_lipschitz : forall (m : network) gains e x y, Forall2 gain_at_most (layers m) gains ->
  within e x y -> within (product gains * e) (trained m x) (trained m y).
Proof.
  intros m gains e x y. unfold trained. revert gains e x y. induction (layers m) as [|[W b] t IH]; intros gains e x y H D.
  - inversion H; subst. cbn. now rewrite Rmult_1_l.
  - inversion H as [|? g ? gs Hl Ht]; subst. pose proof (linear_within g e x y W b Hl D) as D1. destruct t as [|l' t].
    + inversion Ht; subst. cbn [product fold_right forward]. now rewrite Rmult_1_r.
    + change (forward relu ((W, b) :: l' :: t) ?z) with (forward relu (l' :: t) (map relu (apply_linear (W, b) z))).
      specialize (IH gs (g * e) _ _ Ht (relu_within _ _ _ D1)).
      replace (product (g :: gs) * e) with (product gs * (g * e)) by (cbn [product fold_right]; unfold product; ring). exact IH.
Qed.
Print Assumptions C150_lipschitz.

Lemma dot_sum w : forall x, List.length w = List.length x ->
  dot w x = fold_right Rplus 0 (map (fun j => nth j w 0 * nth j x 0) (seq 0 (List.length x))).
Proof.
  induction w as [|a w IH]; intros [|u x] L; try discriminate; [reflexivity|]. unfold dot in *. cbn [combine map fold_right fst snd List.length seq nth].
  f_equal. rewrite IH by (cbn in L; lia). rewrite <- seq_shift, map_map. reflexivity.
Qed.
Lemma apply_output l s x : has_size l s -> List.length x = snd s -> layer_output l x (apply_linear l x).
Proof.
  intros (H1 & H2 & H3) Lx. unfold layer_output, apply_linear. rewrite map_length, combine_length. split; [lia|]. intros k Hk.
  set (g := fun p : list R * R => dot (fst p) x + snd p).
  rewrite (nth_indep _ 0 (g ([], 0))) by (rewrite map_length, combine_length; exact Hk).
  rewrite map_nth, combine_nth by lia. unfold g. cbn [fst snd]. rewrite dot_sum; [ring|]. rewrite Lx. apply H3. apply nth_In. lia.
Qed.
Lemma relu_half : forall a, relu a = (a + Rabs a) / 2.
Proof. intros a. unfold relu, Rmax, Rabs. destruct Rle_dec, Rcase_abs; lra. Qed.
(** consecutive sizes fit together *)
Fixpoint chained (i : nat) (sizes : list (nat * nat)) : Prop :=
  match sizes with [] => True | s :: t => snd s = i /\ chained (fst s) t end.
Lemma sizes_chained i o w d : chained i (layer_sizes i o w d).
Proof. destruct d as [|d]; cbn [layer_sizes chained fst snd]; split; auto. induction d as [|d IH]; cbn [repeat app chained fst snd]; auto. Qed.
Lemma forward_computes ls : forall sizes i x, Forall2 has_size ls sizes -> chained i sizes -> ls <> [] -> List.length x = i -> computes ls x (forward relu ls x).
Proof.
  induction ls as [|l t IH]; intros sizes i x H C N L; [congruence|]. inversion H as [|? s ? st Hl Ht]; subst. destruct C as [C1 C2].
  pose proof (apply_output l s x Hl ltac:(congruence)) as O. destruct t as [|l' t]; [now constructor|].
  change (forward relu (l :: l' :: t) x) with (forward relu (l' :: t) (map relu (apply_linear l x))).
  apply (hidden_layer l (l' :: t) x (apply_linear l x)); [discriminate|exact O|].
  rewrite (map_ext _ _ (fun a => eq_sym (relu_half a))). apply (IH st (fst s)); auto; [discriminate|].
  rewrite map_length. now apply apply_length.
Qed.
Lemma output_unique l x y z : layer_output l x y -> layer_output l x z -> y = z.
Proof. intros [L1 H1] [L2 H2]. apply (nth_ext _ _ 0 0); [congruence|]. intros k Hk. rewrite H1, H2 by congruence. reflexivity. Qed.
(** the prediction is exactly what the weights and biases say *)
Theorem C150_output : forall (m : network) i o w d x y,
  Forall2 has_size (layers m) (layer_sizes i o w d) -> List.length x = i -> (computes (layers m) x y <-> y = trained m x).
Proof.
  intros m i o w d x y H L. assert (N : layers m <> []) by (intros E; rewrite E in H; destruct d; inversion H).
  pose proof (forward_computes _ _ i x H (sizes_chained i o w d) N L) as C. unfold trained. split; [|now intros ->].
  intros Y. revert C. generalize (forward relu (layers m) x) as z. clear -Y. induction Y as [l x y H|l t x h y N H Y IH]; intros z C.
  - inversion C; subst; [eapply output_unique; eauto|congruence].
  - inversion C as [|l1 t1 x1 h1 z1 N1 O1 Z1]; subst; [congruence|]. apply IH. rewrite (output_unique _ _ _ _ H O1). assumption.
Qed.
Print Assumptions C150_output.

(** a network that is saved with names and loaded again predicts the same, whatever parameters the fresh network starts with *)
Theorem C150_reloaded : forall (V : Type) (of_bool : bool -> V) fresh path data_attrs (m m' : network) names names' is_log f i o w d,
  Forall2 has_size (layers m) (layer_sizes i o w d) -> depth m = d ->
  save_model of_bool path data_attrs m (Some names) is_log = Some f -> load_model fresh f = Some (names', m') ->
  names' = names /\ forall x, loaded m' x = trained m x.
Proof.
  intros V ob fresh path da m m' names names' il f i o w d H D E L.
  pose proof (proj1 (C150_shape m i o w d H)) as N. rewrite <- D in N.
  rewrite (C80_round_trip ob fresh path da m names il f N E) in L. injection L as <- <-. now split.
Qed.
Print Assumptions C150_reloaded.

Lemma skipn_add {A} q : forall n (xs : list A), skipn q (skipn n xs) = skipn (n + q) xs.
Proof. induction n as [|n IH]; intros xs; [reflexivity|]. destruct xs as [|x xs]; cbn [skipn Nat.add]; [apply skipn_nil|apply IH]. Qed.
Lemma whole_batches_concat {A B} (f : A -> B) b : forall k xs, (concat (map (map f) (whole_batches k b xs)) ++ map f (skipn (k * b) xs))%list = map f xs.
Proof.
  induction k as [|k IH]; intros xs; [reflexivity|]. cbn [whole_batches map concat]. rewrite <- app_assoc.
  replace (skipn (S k * b) xs) with (skipn (k * b) (skipn b xs)).
  - rewrite IH, <- map_app, firstn_skipn. reflexivity.
  - cbn [Nat.mul]. apply skipn_add.
Qed.
Lemma predict_map model xs b : predict model xs b = map model xs.
Proof. unfold predict, lax_map. apply whole_batches_concat. Qed.
(** each prediction is that of its own row, for every batch size *)
Theorem C150_rows : forall model xs batch_size, (1 <= batch_size)%nat -> predict model xs batch_size = map model xs.
Proof. intros model xs b _. apply predict_map. Qed.
Print Assumptions C150_rows.

(** the loss per data instance: the squared error of each row for one output, an exception for any other number *)
Theorem C150_per_instance : forall model xs ys, List.length xs = List.length ys ->
  (forall x, In x xs -> List.length (model x) = 1%nat) -> (forall y, In y ys -> List.length y = 1%nat) ->
  exists l, per_instance model xs ys 1 = Some l /\ List.length l = List.length xs
    /\ forall k, (k < List.length xs)%nat -> nth k l 0 = (nth 0 (nth k ys []) 0 - nth 0 (model (nth k xs [])) 0) ^ 2.
Proof.
  intros model xs ys L Hx Hy. eexists. split; [reflexivity|]. rewrite predict_map. split.
  - rewrite !map_length, combine_length, map_length. lia.
  - revert ys L Hx Hy. induction xs as [|x xs IH]; intros [|y ys] L Hx Hy k Hk; cbn in L, Hk; try lia.
    cbn [map combine]. destruct k as [|k].
    + cbn [nth fst snd]. pose proof (Hx x (or_introl eq_refl)) as H1. pose proof (Hy y (or_introl eq_refl)) as H2.
      destruct y as [|a [|]], (model x) as [|c [|]]; try discriminate. reflexivity.
    + cbn [nth]. apply IH; [lia| | |lia]; intros; [apply Hx|apply Hy]; now right.
Qed.
Print Assumptions C150_per_instance.

(** a hidden layer of two units: relu(x) + relu(-x) = |x| *)
Definition absolute : network := {| in_size := 1; out_size := 1; width_size := 2; depth := 1;
  layers := [([[1]; [-1]], [0; 0]); ([[1; 1]], [0])] |}.
Lemma absolute_value x : trained absolute [x] = [Rabs x].
Proof.
  unfold trained, absolute, layers, forward, apply_linear, dot, relu. cbn [map combine fst snd fold_right]. f_equal.
  unfold Rmax, Rabs. destruct Rcase_abs; repeat destruct Rle_dec; lra.
Qed.
Example C150_shape_nonvacuous : Forall2 has_size (layers absolute) (layer_sizes 1 1 2 1).
Proof. repeat constructor; cbn; intros w H; repeat (destruct H as [<-|H]); try reflexivity; contradiction. Qed.
(** the depth-1 network computes |x|, as the relation says *)
Example C150_output_nonvacuous : computes (layers absolute) [-3] [3].
Proof.
  apply (C150_output absolute 1 1 2 1 [-3] [3] C150_shape_nonvacuous eq_refl). rewrite absolute_value. f_equal. rewrite Rabs_left; lra.
Qed.
(** its gains are 1 and 2 *)
Example C150_lipschitz_nonvacuous : Forall2 gain_at_most (layers absolute) [1; 2] /\ within (product [1; 2] * 1) (trained absolute [3]) (trained absolute [4]).
Proof.
  assert (G : Forall2 gain_at_most (layers absolute) [1; 2]).
  { assert (A1 : Rabs 1 = 1) by apply Rabs_R1. assert (A2 : Rabs (-1) = 1) by (rewrite Rabs_left; lra).
    constructor; [|constructor; [|constructor]]; (split; [lra|]); cbn [fst In]; intros w H;
      repeat (destruct H as [<-|H]); try contradiction; cbn [fold_right]; lra. }
  split; [exact G|]. apply (C150_lipschitz absolute [1; 2] 1 [3] [4] G). split; [reflexivity|].
  intros [|[|k]]; cbn; unfold Rabs; destruct Rcase_abs; lra.
Qed.
Example C150_reloaded_nonvacuous : exists f m', save_model (fun b : bool => b) "net.hdf5" [] absolute (Some ["q"%string]) false = Some f
  /\ load_model (fun _ _ _ _ _ => ([], [])) f = Some (["q"%string], m') /\ loaded m' [-3] = [3].
Proof.
  eexists. exists absolute. split; [reflexivity|]. split; [reflexivity|].
  change (loaded absolute) with (trained absolute). rewrite absolute_value. f_equal. rewrite Rabs_left; lra.
Qed.
(** two whole batches and a remainder *)
Example C150_rows_nonvacuous : predict (trained absolute) [[-1]; [2]; [-3]; [4]; [-5]] 2 = [[1]; [2]; [3]; [4]; [5]].
Proof. rewrite C150_rows by lia. cbn [map]. rewrite !absolute_value. repeat f_equal; unfold Rabs; destruct Rcase_abs; lra. Qed.
Example C150_per_instance_nonvacuous : exists l, per_instance (trained absolute) [[-3]; [2]] [[5]; [2]] 1 = Some l /\ l = [4; 0].
Proof.
  eexists. split; [unfold per_instance; rewrite predict_map; reflexivity|]. cbn [map]. rewrite !absolute_value. cbn.
  rewrite (Rabs_left (-3)), (Rabs_pos_eq 2) by lra. repeat f_equal; ring.
Qed.

(** refuted: with two output keys the script trains, saves, and then fails *)
Theorem C150_two_outputs_refuted : forall model xs ys n, n <> 1%nat -> per_instance model xs ys n = None.
Proof. intros model xs ys n H. unfold per_instance, squeeze_last. now destruct (Nat.eqb_spec n 1). Qed.
Print Assumptions C150_two_outputs_refuted.
(** refuted: after training with bce_logits the outputs are logits.  A network whose probability 1 / (1 + exp (- logit)) is
    exactly the target on every row still gets a positive loss per data instance *)
Theorem C150_logits_refuted : exists (m : network) xs ys l,
  Forall2 has_size (layers m) (layer_sizes 1 1 1 0)
  /\ (forall k, (k < List.length xs)%nat -> 1 / (1 + exp (- nth 0 (trained m (nth k xs [])) 0)) = nth 0 (nth k ys []) 0)
  /\ per_instance (trained m) xs ys 1 = Some l /\ List.length l = List.length xs /\ List.length xs = 2%nat /\ forall k, (k < 2)%nat -> nth k l 0 = 1 / 4.
Proof.
  exists {| in_size := 1; out_size := 1; width_size := 1; depth := 0; layers := [([[0]], [0])] |}, [[1]; [2]], [[1 / 2]; [1 / 2]]. eexists.
  split; [repeat constructor; cbn; intros w [<-|[]]; reflexivity|]. split.
  { intros k Hk. unfold trained, layers, forward, apply_linear, dot. destruct k as [|[|k]]; cbn in Hk |- *; try lia;
    rewrite ?Rmult_0_l, ?Rplus_0_l, Ropp_0, exp_0; lra. }
  split; [unfold per_instance; rewrite predict_map; reflexivity|]. split; [reflexivity|]. split; [reflexivity|].
  intros k Hk. destruct k as [|[|k]]; try lia; cbn; field.
Qed.
Print Assumptions C150_logits_refuted.
(** refuted for other networks that save_model accepts: the file does not record the activation, so a network with another
    one (here the identity) is loaded with relu and predicts something else *)
Theorem C150_activation_refuted : exists (m : network) f m', save_model (fun b : bool => b) "net.hdf5" [] m (Some ["q"%string]) false = Some f
  /\ load_model (fun _ _ _ _ _ => ([], [])) f = Some (["q"%string], m')
  /\ forward (fun x => x) (layers m) [3] = [0] /\ loaded m' [3] = [3].
Proof.
  exists absolute. eexists. exists absolute. split; [reflexivity|]. split; [reflexivity|]. split.
  - cbn. unfold dot. cbn. f_equal. ring.
  - change (loaded absolute) with (trained absolute). rewrite absolute_value. f_equal. apply Rabs_pos_eq; lra.
Qed.
Print Assumptions C150_activation_refuted.
