(** Properties C51, C52, C79-C82: training of the regressors. *)
From Coq Require Import String.
From Coq Require Import Reals List Bool Arith ZArith Lra Lia Permutation.
From Verif Require Import Model_X Spec_X Model_Injections Proofs_Injections Model_Train.
Import ListNotations.
Open Scope R_scope.

(** ** C51 *)
Lemma split_position_bounds n b t : (1 <= b)%Z -> (2 * b <= n)%Z -> (b <= split_position n b t <= n - b)%Z.
Proof.
  intros Hb Hn. unfold split_position. destruct (Z.leb_spec (2 * b) n); [|lia].
  set (s := Z.max _ b). assert (b <= s)%Z by (unfold s; lia).
  assert (1 <= s / b)%Z by (apply Z.div_le_lower_bound; lia). nia.
Qed.
Lemma take_rows_perm {A} (d : A) xs indices : Permutation indices (seq 0 (length xs)) -> Permutation (take_rows d xs indices) xs.
Proof.
  intros H. unfold take_rows. etransitivity; [apply Permutation_map; exact H|].
  replace (map (fun i => nth i xs d) (seq 0 (length xs))) with xs; [reflexivity|].
  clear. induction xs as [|x t IH]; auto. cbn [length seq map nth]. f_equal. now rewrite <- seq_shift, map_map.
Qed.
(** Training and test rows together are the rows of the data, each as often as it occurs, with inputs and
    targets kept together. *)
Theorem C51_partition : forall A B (dx : A) (dy : B) xs ys indices b t trX teX trY teY, length xs = length ys -> Permutation indices (seq 0 (length xs)) ->
  train_test_data_split dx dy xs ys indices b t = (trX, teX, trY, teY) ->
  Permutation (combine trX trY ++ combine teX teY) (combine xs ys)
  /\ length trX = length trY /\ length teX = length teY /\ (length trX + length teX)%nat = length xs.
Proof.
  intros A B dx dy xs ys indices b t trX teX trY teY L P E. unfold train_test_data_split in E. injection E as <- <- <- <-.
  set (k := Z.to_nat _). unfold take_rows.
  assert (C : forall l, combine (map (fun i => nth i xs dx) l) (map (fun i => nth i ys dy) l) = take_rows (dx, dy) (combine xs ys) l).
  { intros l. unfold take_rows. induction l as [|i l IH]; auto. cbn [map combine]. rewrite combine_nth by auto. now rewrite IH. }
  rewrite !C, !map_length. split; [|split; [reflexivity|split; [reflexivity|]]].
  - unfold take_rows. rewrite <- map_app, firstn_skipn. apply take_rows_perm. now rewrite combine_length, L, Nat.min_id, <- L.
  - rewrite <- app_length, firstn_skipn. rewrite (Permutation_length P). apply seq_length.
Qed.
Print Assumptions C51_partition.
(** With at least two batches of data each part has at least one batch, whatever the test fraction. *)
Theorem C51_nonempty : forall A B (dx : A) (dy : B) xs ys indices b t trX teX trY teY, (1 <= b)%nat -> (2 * b <= length xs)%nat ->
  Permutation indices (seq 0 (length xs)) -> train_test_data_split dx dy xs ys indices (Z.of_nat b) t = (trX, teX, trY, teY) ->
  (b <= length trX)%nat /\ (b <= length teX)%nat.
Proof.
  intros A B dx dy xs ys indices b t trX teX trY teY Hb Hn P E. unfold train_test_data_split in E. injection E as <- <- _ _.
  pose proof (split_position_bounds (Z.of_nat (length xs)) (Z.of_nat b) t ltac:(lia) ltac:(lia)) as S.
  unfold take_rows. rewrite !map_length, firstn_length, skipn_length, (Permutation_length P), seq_length. lia.
Qed.
Print Assumptions C51_nonempty.
(** With at most one batch of data nothing is left to test on. *)
Theorem C51_small : forall A B (dx : A) (dy : B) xs ys indices b t trX teX trY teY, (1 <= b)%nat -> (length xs <= b)%nat ->
  Permutation indices (seq 0 (length xs)) -> train_test_data_split dx dy xs ys indices (Z.of_nat b) t = (trX, teX, trY, teY) ->
  teX = [] /\ length trX = length xs.
Proof.
  intros A B dx dy xs ys indices b t trX teX trY teY Hb Hn P E. unfold train_test_data_split in E. injection E as <- <- _ _.
  assert (S : (Z.of_nat b <= split_position (Z.of_nat (length xs)) (Z.of_nat b) t)%Z).
  { unfold split_position. destruct (Z.leb_spec (2 * Z.of_nat b) (Z.of_nat (length xs))); lia. }
  pose proof (Permutation_length P) as LP. rewrite seq_length in LP.
  unfold take_rows. rewrite skipn_all2, firstn_all2 by lia. split; [reflexivity|]. now rewrite map_length.
Qed.
Print Assumptions C51_small.
(** The training part is not always a whole number of batches. *)
Theorem C51_multiple_refuted : split_position 25 10 (1/100) = 15%Z.
Proof.
  unfold split_position. assert (E : trunc (25 * (1 - 1/100)) = 24%Z).
  { unfold trunc. destruct (Rle_dec 0 (25 * (1 - 1/100))) as [_|N]; [|exfalso; lra].
    destruct (base_Int_part (25 * (1 - 1/100))) as [A B]. set (k := Int_part _) in *.
    assert (H1 : (k <= 24)%Z) by (apply Z.lt_succ_r, lt_IZR; cbn; lra). assert (H2 : (24 <= k)%Z) by (apply Z.lt_succ_r, lt_IZR; rewrite succ_IZR; lra). lia. }
  rewrite E. reflexivity.
Qed.
Print Assumptions C51_multiple_refuted.
(** as many training rows as the fraction allows, up to one batch, when the cap leaves it alone *)
Theorem C51_fraction : forall n b t, (1 <= b)%Z -> (2 * b <= n)%Z -> 0 <= t <= 1 ->
  let want := IZR n * (1 - t) in
  (IZR b <= want -> want <= IZR (n - b) -> want - IZR b - 1 < IZR (split_position n b t) <= want).
Proof.
  intros n b t Hb Hn Ht want Hw1 Hw2. unfold split_position. destruct (Z.leb_spec (2 * b) n); [|lia].
  assert (B : IZR 1 <= IZR b) by (apply IZR_le; lia).
  assert (T : trunc want = Int_part want) by (unfold trunc; destruct (Rle_dec 0 want); [reflexivity|exfalso; lra]). fold want. rewrite T.
  destruct (base_Int_part want) as [I1 I2]. set (k := Int_part want) in *.
  assert (K : (b <= k)%Z) by (apply Z.lt_succ_r, lt_IZR; rewrite succ_IZR; lra).
  rewrite Z.max_l by lia. pose proof (Z.mul_div_le k b ltac:(lia)) as D1. pose proof (Z.mul_succ_div_gt k b ltac:(lia)) as D2.
  rewrite (Z.mul_comm (k / b) b). assert (KN : (k <= n - b)%Z) by (apply le_IZR; lra).
  rewrite Z.min_l by lia. split.
  - apply Rlt_le_trans with (IZR (k - b)); [rewrite minus_IZR; lra|]. apply IZR_le. nia.
  - apply Rle_trans with (IZR k); [apply IZR_le; lia|lra].
Qed.
Print Assumptions C51_fraction.
Example C51_nonvacuous : exists trX teX trY teY,
  train_test_data_split 0%nat 0%nat [1; 2; 3; 4]%nat [5; 6; 7; 8]%nat [2; 0; 3; 1]%nat 2 (1/4) = (trX, teX, trY, teY)
  /\ trX = [3; 1]%nat /\ teX = [4; 2]%nat /\ trY = [7; 5]%nat /\ teY = [8; 6]%nat.
Proof.
  eexists _, _, _, _. split; [reflexivity|].
  assert (S : split_position 4 2 (1/4) = 2%Z).
  { pose proof (split_position_bounds 4 2 (1/4) ltac:(lia) ltac:(lia)). lia. }
  cbn [length Z.of_nat]. change (Z.pos (Pos.of_succ_nat 3)) with 4%Z. rewrite S. repeat split.
Qed.

(** ** C52 *)
(** Among positive targets the order is kept; *)
Theorem C52_monotone : forall tiny a b, 0 < a <= b -> exists u v, log_target tiny (Fin a) = Fin u /\ log_target tiny (Fin b) = Fin v /\ u <= v.
Proof.
  intros tiny a b H. exists (ln a), (ln b). unfold log_target. cbn [xln].
  destruct (Rlt_dec 0 a); [|lra]. destruct (Rlt_dec 0 b); [|lra]. cbn [isneginf]. split; [reflexivity|]. split; [reflexivity|].
  destruct (Req_dec a b); [subst; lra|]. left. apply ln_increasing; lra.
Qed.
Print Assumptions C52_monotone.
(** but an impossible detection gets the target - tiny, above that of all probabilities below exp(- tiny). *)
Theorem C52_zero_refuted : forall tiny b, 0 < tiny -> 0 < b < exp (- tiny) ->
  exists u v, log_target tiny (Fin 0) = Fin u /\ log_target tiny (Fin b) = Fin v /\ v < u.
Proof.
  intros tiny b Ht Hb. exists (- tiny), (ln b). unfold log_target. cbn [xln].
  destruct (Rlt_dec 0 0); [lra|]. destruct (Rlt_dec 0 b); [|lra]. destruct (Req_EM_T 0 0) as [_|N]; [|now elim N]. cbn [isneginf]. split; [reflexivity|]. split; [reflexivity|].
  rewrite <- (ln_exp (- tiny)). apply ln_increasing; lra.
Qed.
Print Assumptions C52_zero_refuted.
(** every target is finite for probabilities in [0, 1] *)
Theorem C52_finite : forall tiny y, 0 < tiny -> 0 <= y <= 1 -> exists u, log_target tiny (Fin y) = Fin u /\ u <= 0.
Proof.
  intros tiny y Ht Hy. unfold log_target. cbn [xln]. destruct (Rlt_dec 0 y).
  - exists (ln y). split; [reflexivity|]. rewrite <- ln_1. destruct (Req_dec y 1); [subst; lra|]. left. apply ln_increasing; lra.
  - destruct (Req_EM_T y 0); [|exfalso; lra]. exists (- tiny). split; [reflexivity|lra].
Qed.
Print Assumptions C52_finite.
Example C52_nonvacuous : exists u v, log_target (1/1000) (Fin (1/4)) = Fin u /\ log_target (1/1000) (Fin (1/2)) = Fin v /\ u <= v.
Proof. apply C52_monotone. lra. Qed.

(** ** C79 *)
Lemma skipn_add {A} a b (l : list A) : skipn (a + b) l = skipn b (skipn a l).
Proof. revert l. induction a as [|a IH]; intros [|x l]; cbn [Nat.add skipn]; auto. now destruct b. Qed.
Lemma batches_count n b : (1 <= b)%nat -> (1 <= n)%nat -> ((n + b - 1) / b = S ((n - b + b - 1) / b))%nat.
Proof.
  intros Hb Hn. destruct (le_lt_dec b n) as [H|H].
  - replace (n + b - 1)%nat with ((n - b + b - 1) + 1 * b)%nat by lia. rewrite Nat.div_add by lia. lia.
  - replace (n - b)%nat with 0%nat by lia. rewrite (Nat.div_small (0 + b - 1)) by lia.
    replace (n + b - 1)%nat with (n - 1 + 1 * b)%nat by lia. rewrite Nat.div_add by lia. rewrite Nat.div_small; lia.
Qed.
Lemma minibatches_nil {A} b : (1 <= b)%nat -> minibatches b (@nil A) = [].
Proof. intros Hb. unfold minibatches, range_step. cbn [length]. now rewrite Nat.div_small by lia. Qed.
Lemma minibatches_cons {A} b (xs : list A) : (1 <= b)%nat -> xs <> [] -> minibatches b xs = firstn b xs :: minibatches b (skipn b xs).
Proof.
  intros Hb Hn. unfold minibatches, range_step. assert (1 <= length xs)%nat by (destruct xs; [easy|cbn; lia]).
  rewrite batches_count by auto. rewrite skipn_length. cbn [seq map]. f_equal.
  - unfold slice. cbn [Nat.mul Nat.add skipn]. now rewrite Nat.sub_0_r.
  - rewrite <- seq_shift, !map_map. apply map_ext. intros k. unfold slice. cbn [Nat.mul]. rewrite skipn_add. f_equal. lia.
Qed.
Lemma minibatches_ind {A} (b : nat) (P : list A -> Prop) : (1 <= b)%nat -> P [] -> (forall xs, xs <> [] -> P (skipn b xs) -> P xs) -> forall xs, P xs.
Proof.
  intros Hb H0 HS xs. remember (length xs) as n eqn:E. revert xs E. induction n as [n IH] using lt_wf_ind. intros xs ->.
  destruct xs as [|x t]; auto. apply HS; [easy|]. apply (IH (length (skipn b (x :: t)))); auto. rewrite skipn_length. cbn [length]. lia.
Qed.
(** An epoch goes over every training row exactly once, in order, in mini-batches of at most the batch size. *)
Theorem C79_cover : forall A b (xs : list A), (1 <= b)%nat ->
  concat (minibatches b xs) = xs /\ (forall m, In m (minibatches b xs) -> (1 <= length m <= b)%nat).
Proof.
  intros A b xs Hb. split.
  - revert xs. apply (minibatches_ind b (fun xs : list A => concat (minibatches b xs) = xs)); auto; [now rewrite minibatches_nil|]. intros xs Hx IH. rewrite minibatches_cons by auto. cbn [concat]. rewrite IH. apply firstn_skipn.
  - revert xs. apply (minibatches_ind b (fun xs : list A => forall m, In m (minibatches b xs) -> (1 <= length m <= b)%nat)); auto; [rewrite minibatches_nil by auto; easy|]. intros xs Hx IH m. rewrite minibatches_cons by auto. intros [<-|I]; [|auto].
    rewrite firstn_length. destruct xs; [easy|cbn; lia].
Qed.
Print Assumptions C79_cover.
Lemma fold_plus l a : fold_left Rplus l a = a + fold_left Rplus l 0.
Proof. revert a. induction l as [|x l IH]; intros a; cbn [fold_left]; [ring|]. rewrite IH, (IH (0 + x)). ring. Qed.
Lemma fold_plus_app l m : fold_left Rplus (l ++ m) 0 = fold_left Rplus l 0 + fold_left Rplus m 0.
Proof. rewrite fold_left_app. apply fold_plus. Qed.
(** When the batch size divides the number of rows the reported loss of an epoch is the mean over the rows
    (for a model that does not change during the epoch), *)
Theorem C79_epoch_loss : forall A (row_loss : A -> R) b k (xs : list A), (1 <= b)%nat -> (1 <= k)%nat -> length xs = (k * b)%nat ->
  epoch_loss (length xs) b (map (fun m => mean (map row_loss m)) (minibatches b xs)) = mean (map row_loss xs).
Proof.
  intros A f b k xs Hb Hk L. unfold epoch_loss, mean at 2. rewrite map_length, L, Nat.div_mul by lia. rewrite Nat.max_r by lia.
  assert (Bn : INR b <> 0) by (apply not_0_INR; lia). assert (Kn : INR k <> 0) by (apply not_0_INR; lia).
  assert (S : forall k (xs : list A), length xs = (k * b)%nat ->
     fold_left Rplus (map (fun m => mean (map f m)) (minibatches b xs)) 0 = fold_left Rplus (map f xs) 0 / INR b).
  { clear -Hb Bn. induction k as [|k IH]; intros xs L.
    - destruct xs; [|discriminate]. rewrite minibatches_nil by auto. cbn. field. auto.
    - rewrite minibatches_cons by (auto; intros ->; cbn in L; lia). cbn [map fold_left]. rewrite fold_plus, Rplus_0_l.
      rewrite IH by (rewrite skipn_length, L; cbn; lia). rewrite <- (firstn_skipn b xs) at 3. rewrite map_app, fold_plus_app.
      unfold mean. rewrite map_length, firstn_length, Nat.min_l by (rewrite L; cbn; lia). field. auto. }
  rewrite (S k xs L), mult_INR. field. auto.
Qed.
Print Assumptions C79_epoch_loss.
(** otherwise it is too large: with the same loss for every row the mean is that loss, the report is more. *)
Theorem C79_epoch_loss_refuted : forall A c b (xs : list A), (1 <= b)%nat -> (b < length xs)%nat -> (length xs mod b <> 0)%nat -> 0 < c ->
  mean (map (fun _ => c) xs) = c /\ c < epoch_loss (length xs) b (map (fun m => mean (map (fun _ => c) m)) (minibatches b xs)).
Proof.
  intros A c b xs Hb Hn Hm Hc.
  assert (Sc : forall (l : list A), fold_left Rplus (map (fun _ => c) l) 0 = INR (length l) * c).
  { induction l as [|x l IH]; [cbn; ring|]. cbn [map fold_left]. rewrite fold_plus, IH. cbn [length]. rewrite S_INR. ring. }
  assert (Mc : forall (l : list A), l <> [] -> mean (map (fun _ => c) l) = c).
  { intros l Hl. unfold mean. rewrite Sc, map_length. field. apply not_0_INR. destruct l; [easy|discriminate]. }
  split; [apply Mc; intros ->; cbn in Hn; lia|].
  assert (Sb : fold_left Rplus (map (fun m => mean (map (fun _ => c) m)) (minibatches b xs)) 0 = INR ((length xs + b - 1) / b) * c).
  { replace ((length xs + b - 1) / b)%nat with (length (minibatches b xs)) by (unfold minibatches, range_step; now rewrite !map_length, seq_length).
    assert (G : forall ls : list (list A), (forall m, In m ls -> (1 <= length m)%nat) -> fold_left Rplus (map (fun m => mean (map (fun _ => c) m)) ls) 0 = INR (length ls) * c).
    { induction ls as [|m ls IH]; intros H; [cbn; ring|]. cbn [map fold_left]. rewrite fold_plus, IH by (intros; apply H; now right). rewrite Mc.
      - cbn [length]. rewrite S_INR. ring.
      - intros ->. specialize (H [] (or_introl eq_refl)). cbn in H. lia. }
    apply G. intros m Im. now apply (C79_cover A b xs Hb). }
  unfold epoch_loss. rewrite Sb. set (n := length xs) in *.
  assert (Q1 : (1 <= n / b)%nat) by (apply Nat.div_le_lower_bound; lia).
  assert (Q2 : ((n + b - 1) / b = S (n / b))%nat).
  { pose proof (Nat.div_mod n b ltac:(lia)) as D. pose proof (Nat.mod_upper_bound n b ltac:(lia)) as U.
    replace (n + b - 1)%nat with ((n mod b - 1) + (S (n / b)) * b)%nat by nia. rewrite Nat.div_add by lia. rewrite Nat.div_small; lia. }
  rewrite Q2, Nat.max_r by lia. rewrite S_INR. assert (0 < INR (n / b)) by (apply lt_0_INR; lia).
  apply (Rmult_lt_reg_r (INR (n / b))); auto. unfold Rdiv. rewrite Rmult_assoc, Rinv_l by lra. nra.
Qed.
Print Assumptions C79_epoch_loss_refuted.
Example C79_nonvacuous : minibatches 2 [1; 2; 3; 4; 5]%nat = [[1; 2]; [3; 4]; [5]]%nat.
Proof. reflexivity. Qed.

(** ** C80 *)
Section SaveProps.
Context {W B V : Type}.
Variable of_bool : bool -> V.
Variable fresh_layer : Z -> Z -> Z -> nat -> nat -> W * B.
Lemma replace_nth_app (p : list (W * B)) x y t : replace_nth (length p) x (p ++ y :: t) = Some (p ++ x :: t).
Proof. induction p as [|a p IH]; auto. cbn [length app replace_nth]. now rewrite IH. Qed.
Lemma set_layers_app gs : forall (p l : list (W * B)), length gs = length l -> set_layers (length p) gs (p ++ l) = Some (p ++ gs).
Proof.
  induction gs as [|g gs IH]; intros p [|y l] L; try discriminate; auto. cbn [set_layers]. rewrite replace_nth_app. cbn [bind].
  replace (p ++ g :: l) with ((p ++ [g]) ++ l) by (now rewrite <- app_assoc). replace (S (length p)) with (length (p ++ [g])) by (rewrite app_length; cbn; lia).
  rewrite IH by (cbn in L; lia). now rewrite <- app_assoc.
Qed.
Lemma replace_nth_past (l : list (W * B)) k x : (length l <= k)%nat -> replace_nth k x l = None.
Proof. revert k. induction l as [|y l IH]; intros k H; [now destruct k|]. destruct k; [cbn in H; lia|]. cbn [replace_nth]. rewrite IH by (cbn in H; lia). reflexivity. Qed.
(** A saved network is loaded back with the same sizes, weights, biases and input names. *)
Theorem C80_round_trip : forall path data_attrs (m : mlp W B) names is_log f,
  length (layers m) = S (depth m) -> save_model of_bool path data_attrs m (Some names) is_log = Some f ->
  load_model fresh_layer f = Some (names, m).
Proof.
  intros path da m names is_log f L E. unfold save_model in E. destruct (ends_with ".hdf5" path); [|discriminate]. cbn [negb] in E. injection E as <-.
  unfold load_model. cbn [names_ds sizes groups bind].
  assert (S0 := set_layers_app (layers m) [] (layers (new_mlp fresh_layer (in_size m) (out_size m) (width_size m) (depth m)))).
  cbn [length app] in S0. rewrite S0 by (cbn [layers new_mlp]; now rewrite map_length, seq_length). cbn [bind new_mlp in_size out_size width_size depth]. now destruct m.
Qed.
(** The file keeps the attributes of the data file and says whether the targets were logarithms. *)
Theorem C80_attributes : forall path data_attrs (m : mlp W B) names is_log f,
  save_model of_bool path data_attrs m names is_log = Some f -> NoDup (map fst data_attrs) ->
  dget (attrs f) "is_log" = Some (of_bool is_log) /\ forall k, k <> "is_log"%string -> dget (attrs f) k = dget data_attrs k.
Proof.
  intros path da m names is_log f E N. unfold save_model in E. destruct (ends_with ".hdf5" path); [|discriminate]. cbn [negb] in E. injection E as <-. cbn [attrs].
  split; [now rewrite dget_dset, String.eqb_refl|]. intros k Hk. rewrite dget_dset. destruct (String.eqb_spec "is_log" k); [now subst|].
  assert (G : forall acc, NoDup (map fst da) -> dget (fold_left (fun a kv => dset a (fst kv) (snd kv)) da acc) k = match dget da k with Some v => Some v | None => dget acc k end).
  { clear. induction da as [|[k0 v0] da IH]; intros acc N; [reflexivity|]. cbn [map fst] in N. inversion N as [|? ? N1 N2]; subst. cbn [fold_left fst snd dget]. rewrite IH by auto.
    rewrite dget_dset. destruct (String.eqb_spec k0 k) as [->|]; [|reflexivity].
    destruct (dget da k) eqn:D; [|reflexivity]. exfalso. apply N1. clear -D. induction da as [|[k1 v1] da IH]; [discriminate|]. cbn [dget] in D. cbn [map fst].
    destruct (String.eqb_spec k1 k); [now left|right; auto]. }
  rewrite G by auto. cbn [dget]. now destruct (dget da k).
Qed.
(** A network saved without names, which the signature allows, cannot be loaded; nor can one with more layers than its depth says. *)
Theorem C80_names_refuted : forall path data_attrs (m : mlp W B) is_log f, save_model of_bool path data_attrs m None is_log = Some f -> load_model fresh_layer f = None.
Proof. intros path da m is_log f E. unfold save_model in E. destruct (ends_with ".hdf5" path); [|discriminate]. injection E as <-. reflexivity. Qed.
Lemma substring_all s : String.substring 0 (String.length s) s = s.
Proof. induction s; cbn; congruence. Qed.
Lemma ends_with_append s suf : ends_with suf s = true <-> exists stem, s = (stem ++ suf)%string.
Proof.
  unfold ends_with. rewrite andb_true_iff, Nat.leb_le, String.eqb_eq. split.
  - intros [L E]. exists (String.substring 0 (String.length s - String.length suf) s). rewrite <- E at 2.
    revert L. generalize (String.length suf). clear. intros m L.
    assert (G : forall k m (s : string), (k + m = String.length s)%nat -> s = (String.substring 0 k s ++ String.substring k m s)%string).
    { clear. induction k as [|k IH]; intros m s H; destruct s as [|c s]; cbn in H; try lia; cbn [String.substring append].
      - subst m. reflexivity.
      - cbn in H. subst m. cbn. now rewrite substring_all.
      - now rewrite <- IH by lia. }
    apply G. lia.
  - intros [stem ->]. assert (Len : String.length (stem ++ suf) = (String.length stem + String.length suf)%nat) by (induction stem; cbn; congruence).
    rewrite Len. split; [lia|]. replace (_ + _ - _)%nat with (String.length stem) by lia.
    clear. induction stem as [|c stem IH]; cbn [append String.length String.substring]; [apply substring_all|exact IH].
Qed.
(** exactly the paths that do not end in .hdf5 are refused *)
Theorem C80_extension : forall path data_attrs (m : mlp W B) names is_log,
  save_model of_bool path data_attrs m names is_log = None <-> ~ exists stem, path = (stem ++ ".hdf5")%string.
Proof.
  intros path da m names is_log. unfold save_model. rewrite <- ends_with_append. destruct (ends_with ".hdf5" path); cbn [negb]; split; congruence.
Qed.
End SaveProps.
Print Assumptions C80_round_trip.
Print Assumptions C80_attributes.
Print Assumptions C80_names_refuted.
Print Assumptions C80_extension.
Example C80_nonvacuous : exists f, save_model (fun b : bool => b) "net.hdf5" [("run", false)]%string {| in_size := 2; out_size := 1; width_size := 3; depth := 1; layers := [(1, 2); (3, 4)]%nat |} (Some ["mass_1"; "mass_2"]%string) true = Some f
  /\ load_model (fun _ _ _ _ _ => (0, 0)%nat) f = Some (["mass_1"; "mass_2"]%string, {| in_size := 2; out_size := 1; width_size := 3; depth := 1; layers := [(1, 2); (3, 4)]%nat |}).
Proof. eexists. split; [reflexivity|]. reflexivity. Qed.

(** ** C81 *)
(** The learning rate stays between 0 and its peak, and between the floor and its peak after the warm-up. *)
Theorem C81_range : forall n b epochs warmup peak floor f k, (1 <= b)%Z -> (0 <= n)%Z -> 0 < peak -> 0 <= floor <= peak -> (0 <= k)%Z ->
  schedule n b epochs warmup peak floor = Some f ->
  0 <= f k <= peak /\ ((warmup_steps n b epochs warmup <= k)%Z -> floor <= f k).
Proof.
  intros n b epochs warmup peak floor f k Hb Hn Hp Hf Hk E. unfold schedule, warmup_cosine in E.
  set (w := warmup_steps n b epochs warmup) in *. set (d := Z.max 1 _) in *. destruct (Z.leb_spec (d - w) 0); [discriminate|]. injection E as <-.
  set (a := floor / peak). assert (A : 0 <= a <= 1).
  { unfold a. split; [apply Rmult_le_pos; [lra|left; now apply Rinv_0_lt_compat]|]. apply (Rmult_le_reg_r peak); auto. unfold Rdiv. rewrite Rmult_assoc, Rinv_l; lra. }
  destruct (Z.ltb_spec k w) as [L|L].
  - split; [|lia]. assert (K : 0 <= IZR k) by (apply IZR_le; lia). assert (KW : IZR k < IZR w) by (now apply IZR_lt).
    assert (Q : 0 <= IZR k / IZR w <= 1).
    { split; [apply Rmult_le_pos; [lra|left; apply Rinv_0_lt_compat; lra]|]. apply (Rmult_le_reg_r (IZR w)); [lra|]. unfold Rdiv. rewrite Rmult_assoc, Rinv_l; lra. }
    split; nra.
  - pose proof (COS_bound (PI * Rmin (IZR (k - w)) (IZR (d - w)) / IZR (d - w))) as C. set (c := cos _) in *.
    assert (G : a <= (1 - a) * (1/2 * (1 + c)) + a <= 1) by (split; nra).
    assert (F : peak * a = floor) by (unfold a; field; lra). split; [split|intros _]; nra.
Qed.
Print Assumptions C81_range.
(** It reaches the peak after the warm-up and the floor when the schedule ends, *)
Theorem C81_ends : forall n b epochs warmup peak floor f, 0 < peak ->
  schedule n b epochs warmup peak floor = Some f ->
  f (warmup_steps n b epochs warmup) = peak
  /\ forall k, (total_steps n b epochs - warmup_steps n b epochs warmup <= k)%Z -> (1 <= k)%Z -> f k = floor.
Proof.
  intros n b epochs warmup peak floor f Hp E. unfold schedule, warmup_cosine in E.
  set (w := warmup_steps n b epochs warmup) in *. set (d := Z.max 1 _) in *. destruct (Z.leb_spec (d - w) 0) as [|D]; [discriminate|]. injection E as <-.
  assert (PD : 0 < IZR (d - w)) by (now apply IZR_lt).
  split.
  - destruct (Z.ltb_spec w w); [lia|]. rewrite Z.sub_diag. rewrite Rmin_left by lra. replace (PI * 0 / IZR (d - w)) with 0 by (field; lra). rewrite cos_0. field. lra.
  - intros k Hk K1. destruct (Z.ltb_spec k w); [lia|]. rewrite Rmin_right by (apply IZR_le; lia). replace (PI * IZR (d - w) / IZR (d - w)) with PI by (field; lra). rewrite cos_PI. field. lra.
Qed.
Print Assumptions C81_ends.
(** but that is a whole warm-up before the training ends: the decay is counted without the warm-up, which
    is taken off again.  Up to twice as many epochs as warm-up epochs, the training cannot start. *)
Theorem C81_early_refuted : forall n b epochs warmup peak floor f, (1 <= b)%Z -> (0 <= n)%Z -> (1 <= epochs)%Z -> (1 <= warmup)%Z -> 0 < peak ->
  schedule n b epochs warmup peak floor = Some f ->
  exists k, (k = steps_per_epoch n b * (epochs - warmup))%Z /\ (k + warmup * steps_per_epoch n b = total_steps n b epochs)%Z
    /\ forall j, (k <= j)%Z -> f j = floor.
Proof.
  intros n b epochs warmup peak floor f Hb Hn He Hw Hp E. pose proof E as E0. unfold schedule, warmup_cosine in E0.
  destruct (Z.leb_spec (Z.max 1 (total_steps n b epochs - warmup_steps n b epochs warmup) - warmup_steps n b epochs warmup) 0) as [|D]; [discriminate|]. clear E0.
  assert (S : (1 <= steps_per_epoch n b)%Z) by (unfold steps_per_epoch; lia).
  assert (T : (total_steps n b epochs = steps_per_epoch n b * epochs)%Z) by (unfold total_steps; nia).
  assert (Wd : warmup_steps n b epochs warmup = (warmup * steps_per_epoch n b)%Z).
  { unfold warmup_steps in *. rewrite T in *. rewrite Z.max_r in * by lia. set (s := steps_per_epoch n b) in *.
    destruct (Z.le_gt_cases (warmup * s) (s * epochs)) as [|G]; [now apply Z.min_r|]. rewrite Z.min_l in D by lia. nia. }
  rewrite T, Wd in D. exists (steps_per_epoch n b * (epochs - warmup))%Z. split; [reflexivity|]. split; [rewrite T; ring|].
  intros j Hj. destruct (C81_ends n b epochs warmup peak floor f Hp E) as [_ F]. apply F; [rewrite T, Wd; nia|]. nia.
Qed.
Print Assumptions C81_early_refuted.
Theorem C81_few_epochs_refuted : forall n b epochs warmup peak floor, (1 <= b)%Z -> (0 <= n)%Z -> (1 <= warmup)%Z -> (1 <= epochs <= 2 * warmup)%Z ->
  schedule n b epochs warmup peak floor = None.
Proof.
  intros n b epochs warmup peak floor Hb Hn Hw He. unfold schedule, warmup_cosine.
  assert (S : (1 <= steps_per_epoch n b)%Z) by (unfold steps_per_epoch; lia).
  assert (T : (total_steps n b epochs = steps_per_epoch n b * epochs)%Z) by (unfold total_steps; nia).
  match goal with |- (if ?c then _ else _) = _ => replace c with true; [reflexivity|] end. symmetry. apply Z.leb_le.
  unfold warmup_steps. rewrite T. rewrite (Z.max_r 0 warmup) by lia. set (s := steps_per_epoch n b) in *.
  destruct (Z.le_gt_cases (warmup * s) (s * epochs)) as [G|G]; [rewrite Z.min_r by lia|rewrite Z.min_l by lia]; nia.
Qed.
Print Assumptions C81_few_epochs_refuted.
Lemma minibatches_length {A} b (xs : list A) : length (minibatches b xs) = ((length xs + b - 1) / b)%nat.
Proof. unfold minibatches, range_step. now rewrite !map_length, seq_length. Qed.
(** When the batch size divides the number of rows, or exceeds it, the schedule counts the updates that
    are made: its length is the number of updates of the training and its warm-up those of the warm-up
    epochs. *)
Theorem C81_steps : forall A b (xs : list A) epochs warmup, (1 <= b)%nat -> xs <> [] -> (1 <= epochs)%nat -> (warmup <= epochs)%nat ->
  (length xs mod b = 0 \/ length xs <= b)%nat ->
  let updates e := Z.of_nat (e * length (minibatches b xs)) in
  total_steps (Z.of_nat (length xs)) (Z.of_nat b) (Z.of_nat epochs) = updates epochs
  /\ warmup_steps (Z.of_nat (length xs)) (Z.of_nat b) (Z.of_nat epochs) (Z.of_nat warmup) = updates warmup.
Proof.
  intros A b xs epochs warmup Hb Hx He Hw H updates. assert (L : (1 <= length xs)%nat) by (destruct xs; [easy|cbn; lia]).
  assert (S : steps_per_epoch (Z.of_nat (length xs)) (Z.of_nat b) = Z.of_nat (length (minibatches b xs))).
  { rewrite minibatches_length. unfold steps_per_epoch. rewrite <- Nat2Z.inj_div. destruct H as [H|H].
    - apply Nat.mod_divide in H; [|lia]. destruct H as [k H]. rewrite H in *. assert (1 <= k)%nat by nia.
      replace (k * b + b - 1)%nat with (b - 1 + k * b)%nat by lia.
      rewrite Nat.div_add, (Nat.div_small (b - 1)), Nat.div_mul by lia. cbn [Nat.add]. lia.
    - destruct (Nat.eq_dec (length xs) b) as [E|E].
      + rewrite E, Nat.div_same by lia. replace (b + b - 1)%nat with (b - 1 + 1 * b)%nat by lia.
        rewrite Nat.div_add, (Nat.div_small (b - 1)) by lia. reflexivity.
      + rewrite (Nat.div_small (length xs)) by lia. replace (length xs + b - 1)%nat with (length xs - 1 + 1 * b)%nat by lia.
        rewrite Nat.div_add, Nat.div_small by lia. reflexivity. }
  assert (P : (1 <= Z.of_nat (length (minibatches b xs)))%Z) by (rewrite <- S; unfold steps_per_epoch; lia).
  unfold updates, warmup_steps, total_steps. rewrite S, !Nat2Z.inj_mul. split; [nia|]. rewrite Z.max_r by nia. rewrite Z.max_r by lia. nia.
Qed.
Print Assumptions C81_steps.
(** Otherwise every epoch makes one update more than the schedule counts. *)
Theorem C81_steps_refuted : forall A b (xs : list A) epochs, (1 <= b)%nat -> (b < length xs)%nat -> (length xs mod b <> 0)%nat -> (1 <= epochs)%nat ->
  Z.of_nat (epochs * length (minibatches b xs))
  = (total_steps (Z.of_nat (length xs)) (Z.of_nat b) (Z.of_nat epochs) + Z.of_nat epochs)%Z.
Proof.
  intros A b xs epochs Hb Hl Hm He. rewrite minibatches_length.
  pose proof (Nat.div_mod (length xs) b ltac:(lia)) as D. set (q := (length xs / b)%nat) in *. set (r := (length xs mod b)%nat) in *.
  assert (R : (r < b)%nat) by (apply Nat.mod_upper_bound; lia). assert (1 <= q)%nat by nia.
  replace (length xs + b - 1)%nat with (r - 1 + (S q) * b)%nat by nia. rewrite Nat.div_add, Nat.div_small by lia.
  unfold total_steps, steps_per_epoch. rewrite <- Nat2Z.inj_div. fold q. rewrite Nat2Z.inj_mul. nia.
Qed.
Print Assumptions C81_steps_refuted.
Example C81_nonvacuous : exists f, schedule 100 10 50 3 (1/1000) (1/1000000) = Some f /\ f 30%Z = 1/1000 /\ f 470%Z = 1/1000000 /\ total_steps 100 10 50 = 500%Z.
Proof.
  destruct (schedule 100 10 50 3 (1/1000) (1/1000000)) as [f|] eqn:E; [|discriminate]. exists f. split; [reflexivity|].
  destruct (C81_ends 100 10 50 3 (1/1000) (1/1000000) f ltac:(lra) E) as [F1 F2]. split; [exact F1|]. split; [apply F2; [cbn; lia|lia]|reflexivity].
Qed.

(** ** C82 *)
From Coquelicot Require Import Coquelicot.
Definition sigmoid (l : R) : R := / (1 + exp (- l)).
Lemma sigmoid_range l : 0 < sigmoid l < 1.
Proof.
  unfold sigmoid. pose proof (exp_pos (- l)). split; [apply Rinv_0_lt_compat; lra|]. rewrite <- Rinv_1. apply Rinv_lt_contravar; lra.
Qed.
Lemma log_sigmoid_ln l : log_sigmoid l = ln (sigmoid l) /\ log_sigmoid (- l) = ln (1 - sigmoid l).
Proof.
  pose proof (exp_pos (- l)) as P. pose proof (exp_pos l) as P'. unfold log_sigmoid, sigmoid. split; [now rewrite ln_Rinv by lra|].
  rewrite Ropp_involutive. rewrite <- ln_Rinv by lra. f_equal. rewrite exp_Ropp. field. split; lra.
Qed.
Lemma clip_range eps y : 0 < eps < 1/2 -> eps <= clip y eps (1 - eps) <= 1 - eps.
Proof. intros H. unfold clip. split; [apply Rmin_glb; [apply Rmax_r|lra]|apply Rmin_r]. Qed.
(** The loss with logits is positive, its derivative in the logit is the predicted probability minus the
    (clipped) label, and no prediction has a smaller loss than the label itself. *)
Theorem C82_gradient : forall eps l y, 0 < eps < 1/2 ->
  derivable_pt_lim (fun l => bce_logits eps l y) l (/ (1 + exp (- l)) - clip y eps (1 - eps)).
Proof.
  intros eps l y He. apply is_derive_Reals. unfold bce_logits, log_sigmoid. set (c := clip y eps (1 - eps)). clearbody c.
  pose proof (exp_pos (- l)) as P. pose proof (exp_pos l) as P'. auto_derive.
  - rewrite Ropp_involutive. split; [lra|split; [lra|auto]].
  - rewrite (Ropp_involutive l), exp_Ropp. field. split; lra.
Qed.
Print Assumptions C82_gradient.
Theorem C82_minimum : forall eps l y, 0 < eps < 1/2 -> let p := clip y eps (1 - eps) in
  0 < bce_logits eps l y /\ bce_logits eps (ln (p / (1 - p))) y = - p * ln p - (1 - p) * ln (1 - p)
  /\ bce_logits eps (ln (p / (1 - p))) y <= bce_logits eps l y.
Proof.
  intros eps l y He p. assert (P := clip_range eps y He). fold p in P.
  assert (V : forall l, bce_logits eps l y = - p * ln (sigmoid l) - (1 - p) * ln (1 - sigmoid l)).
  { intros t. unfold bce_logits. fold p. destruct (log_sigmoid_ln t) as [-> ->]. reflexivity. }
  assert (Sp : sigmoid (ln (p / (1 - p))) = p).
  { unfold sigmoid. rewrite exp_Ropp, exp_ln by (apply Rdiv_lt_0_compat; lra). field. split; [lra|]. split; [lra|]. lra. }
  rewrite !V, Sp. pose proof (sigmoid_range l) as S. set (s := sigmoid l) in *. clearbody s.
  assert (N : forall x, 0 < x -> x < 1 -> ln x < 0) by (intros x H1 H2; rewrite <- ln_1; apply ln_increasing; lra).
  assert (G : forall x q, 0 < x -> 0 < q -> q * ln x - q * ln q <= x - q).
  { intros x q Hx Hq. replace (q * ln x - q * ln q) with (q * (ln (x / q))) by (unfold Rdiv; rewrite ln_mult, ln_Rinv by (auto; now apply Rinv_0_lt_compat); ring).
    assert (D : 0 < x / q) by (now apply Rdiv_lt_0_compat).
    assert (LE : ln (x / q) <= x / q - 1). { pose proof (exp_ineq1_le (ln (x / q))) as EI. rewrite exp_ln in EI by auto. lra. }
    replace (x - q) with (q * (x / q - 1)) by (field; lra). apply Rmult_le_compat_l; lra. }
  split; [|split; [reflexivity|]].
  - pose proof (N s ltac:(lra) ltac:(lra)). pose proof (N (1 - s) ltac:(lra) ltac:(lra)). nra.
  - pose proof (G s p ltac:(lra) ltac:(lra)). pose proof (G (1 - s) (1 - p) ltac:(lra) ltac:(lra)). lra.
Qed.
Print Assumptions C82_minimum.
Example C82_nonvacuous : bce_logits (1/10) 0 (1/2) = ln 2.
Proof.
  unfold bce_logits, log_sigmoid, clip. rewrite Rmax_left, Rmin_left by lra. rewrite !Ropp_0, exp_0. replace (1 + 1) with 2 by ring. field.
Qed.
