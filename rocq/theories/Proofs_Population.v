From Coq Require Import String Ascii List Arith Bool Reals Lra Lia.
From Verif Require Import Model_X Spec_X Proofs_X Model_Key Model_Guru Model_Population.
Import ListNotations.
Open Scope nat_scope.

(** ** strings *)
Lemma sub_full s : substring 0 (String.length s) s = s.
Proof. induction s; cbn; congruence. Qed.
Lemma sub_split n s : n <= String.length s ->
  s = (substring 0 n s ++ substring n (String.length s - n) s)%string.
Proof.
  revert n. induction s as [|a s IH]; intros [|n] H; auto.
  - cbn. now rewrite sub_full.
  - cbn in H. cbn [substring String.length append]. rewrite Nat.sub_succ. f_equal. apply IH. lia.
Qed.
Lemma sub_app a b : substring (String.length a) (String.length b) (a ++ b) = b.
Proof. induction a; cbn; auto using sub_full. Qed.
Lemma str_app_length a b : String.length (a ++ b) = String.length a + String.length b.
Proof. induction a; cbn; auto. Qed.
Lemma ends_with_spec s suf : ends_with s suf = true <-> exists stem, s = (stem ++ suf)%string.
Proof.
  unfold ends_with. rewrite andb_true_iff, Nat.leb_le, String.eqb_eq. split.
  - intros [H1 H2]. exists (substring 0 (String.length s - String.length suf) s).
    rewrite <- H2 at 2. replace (String.length suf) with (String.length s - (String.length s - String.length suf)) at 3 by lia.
    apply sub_split. lia.
  - intros [stem ->]. rewrite str_app_length. split; [lia|].
    replace (String.length stem + String.length suf - String.length suf) with (String.length stem) by lia. apply sub_app.
Qed.
Lemma has_char_spec c s : has_char c s = true <-> exists a b, s = (a ++ String c b)%string.
Proof.
  induction s as [|x s IH]; cbn.
  - split; [discriminate|]. intros [[|y a] [b E]]; discriminate.
  - rewrite orb_true_iff, Ascii.eqb_eq, IH. split.
    + intros [->|[a [b ->]]]; [now exists EmptyString, s|now exists (String x a), b].
    + intros [[|y a] [b E]]; cbn in E; injection E as E1 E2; subst; [now left|]. right. now exists a, b.
Qed.

(** ** cells *)
Lemma set_cell_length i v r : length (set_cell i v r) = length r.
Proof. revert i. induction r; intros [|i]; cbn; auto. Qed.
Lemma cell_set_same i v r : i < length r -> cell i (set_cell i v r) = v.
Proof. revert i. induction r as [|x r IH]; intros [|i] H; cbn in *; try lia; auto. apply IH. lia. Qed.
Lemma cell_set_other i j v r : i <> j -> cell j (set_cell i v r) = cell j r.
Proof.
  revert i j. induction r as [|x r IH]; intros [|i] [|j] H; cbn; auto; try lia. apply IH. lia.
Qed.
Lemma index_of_lt l x i : index_of l x = Some i -> i < length l /\ nth i l EmptyString = x.
Proof.
  revert i. induction l as [|y l IH]; intros i; cbn; [discriminate|].
  destruct (String.eqb_spec y x) as [->|_].
  - intros E. injection E as <-. split; [lia|auto].
  - destruct (index_of l x) as [k|]; cbn; [|discriminate]. intros E. injection E as <-.
    destruct (IH k eq_refl). split; [lia|auto].
Qed.
Lemma index_of_inj l x y i : index_of l x = Some i -> index_of l y = Some i -> x = y.
Proof. intros A B. apply index_of_lt in A. apply index_of_lt in B. destruct A, B. congruence. Qed.
Lemma index_of_in l x : In x l -> exists i, index_of l x = Some i.
Proof.
  induction l as [|y l IH]; [easy|]. intros H. cbn. destruct (String.eqb_spec y x) as [->|Hn]; [eauto|].
  destruct H as [H|H]; [congruence|]. destruct (IH H) as [i ->]. cbn. eauto.
Qed.
Lemma map_opt_length {A B} (f : A -> option B) l r : map_opt f l = Some r -> length r = length l.
Proof.
  revert r. induction l as [|a l IH]; intros r; cbn; [now intros [= <-]|].
  destruct (f a); [|discriminate]. destruct (map_opt f l) as [r'|]; [|discriminate].
  intros [= <-]. cbn. f_equal. now apply IH.
Qed.
Lemma map_opt_nth {A B} (f : A -> option B) l r k da db : map_opt f l = Some r -> k < length l ->
  f (nth k l da) = Some (nth k r db).
Proof.
  revert r k. induction l as [|a l IH]; intros r k; cbn; [lia|].
  destruct (f a) eqn:E; [|discriminate]. destruct (map_opt f l) as [r'|]; [|discriminate].
  intros [= <-] Hk. destruct k; cbn; auto. apply IH; auto. lia.
Qed.

Lemma order_masses_spec i1 i2 r : i1 <> i2 -> i1 < length r -> i2 < length r ->
  cell i1 (order_masses i1 i2 r) = xmax (cell i1 r) (cell i2 r)
  /\ cell i2 (order_masses i1 i2 r) = xmin (cell i1 r) (cell i2 r)
  /\ (forall j, j <> i1 -> j <> i2 -> cell j (order_masses i1 i2 r) = cell j r)
  /\ length (order_masses i1 i2 r) = length r.
Proof.
  intros Hn H1 H2. unfold order_masses. split; [|split; [|split]].
  - rewrite cell_set_other by auto. now apply cell_set_same.
  - apply cell_set_same. now rewrite set_cell_length.
  - intros j A B. rewrite !cell_set_other by auto. reflexivity.
  - now rewrite !set_cell_length.
Qed.
Lemma max_min_spec a b : a <> NaN -> b <> NaN ->
  xleb (xmin a b) (xmax a b) = true /\ ((xmax a b = a /\ xmin a b = b) \/ (xmax a b = b /\ xmin a b = a)).
Proof.
  intros Ha Hb. unfold xmin, xmax.
  destruct a as [x| | |]; try easy; destruct b as [y| | |]; try easy; cbn; rewrite ?Ropp_involutive; auto.
  destruct (Rle_dec x y); cbn; destruct (Rle_dec (- x) (- y)); cbn; rewrite ?Ropp_involutive;
    repeat match goal with |- context [Rle_dec ?u ?v] => destruct (Rle_dec u v) end; split; auto; try lra;
    assert (x = y) by lra; subst; auto.
Qed.

(** ** softmax *)
Open Scope R_scope.
Definition fin_or_ninf (x : X) : Prop := x = NInf \/ exists r, x = Fin r.
Lemma xmaximum_fon l : List.Forall fin_or_ninf l -> fin_or_ninf (xmaximum l).
Proof.
  induction 1 as [|x l Hx _ IH]; [left; reflexivity|]. cbn [xmaximum fold_right]. fold (xmaximum l).
  destruct Hx as [->|[r ->]]; destruct IH as [->|[m ->]]; cbn; try (now left); try (right; now eexists).
  destruct (Rle_dec r m); right; now eexists.
Qed.
Lemma xmaximum_fin l : List.Forall fin_or_ninf l -> (exists r, In (Fin r) l) -> exists m, xmaximum l = Fin m.
Proof.
  intros HF [r Hr]. induction HF as [|x l Hx HF IH]; [easy|].
  cbn [xmaximum fold_right]. fold (xmaximum l). pose proof (xmaximum_fon l HF) as Hm.
  destruct Hr as [->|Hr].
  - destruct Hm as [->|[m ->]]; cbn; [now eexists|]. destruct (Rle_dec r m); now eexists.
  - destruct (IH Hr) as [m ->]. destruct Hx as [->|[q ->]]; cbn; [now eexists|]. destruct (Rle_dec q m); now eexists.
Qed.
Lemma xsum_nonneg_fin (f : X -> R) l : (forall x, In x l -> 0 <= f x) ->
  exists s, xsum (map (fun x => Fin (f x)) l) = Fin s /\ 0 <= s /\ forall x, In x l -> f x <= s.
Proof.
  induction l as [|x l IH]; intros H.
  - exists 0. cbn. split; auto. split; [lra|easy].
  - destruct IH as [s [E [P B]]]; [intros; apply H; now right|]. cbn [map xsum fold_right]. fold (xsum (map (fun x => Fin (f x)) l)).
    rewrite E. cbn. exists (f x + s). assert (0 <= f x) by (apply H; now left). split; auto. split; [lra|].
    intros y [->|Hy]; [lra|]. specialize (B y Hy). lra.
Qed.
Lemma softmax_spec l i : List.Forall fin_or_ninf l -> (exists r, In (Fin r) l) -> (i < length l)%nat ->
  exists w, nth i (softmax l) NaN = Fin w /\ 0 <= w /\ (0 < w <-> exists r, nth i l NaN = Fin r).
Proof.
  intros HF Hex Hi. destruct (xmaximum_fin l HF Hex) as [m Hm].
  set (f := fun x => match x with Fin r => exp (r - m) | _ => 0 end).
  assert (E : map (fun x => xexp (xsub x (Fin m))) l = map (fun x => Fin (f x)) l).
  { apply map_ext_in. intros x Hx. rewrite List.Forall_forall in HF. destruct (HF x Hx) as [->|[r ->]]; reflexivity. }
  assert (P : forall x, 0 <= f x) by (intros [| | |]; cbn; try lra; left; apply exp_pos).
  destruct (xsum_nonneg_fin f l (fun x _ => P x)) as [s [Es [Ps Bs]]].
  assert (Hs : 0 < s). { destruct Hex as [r Hr]. specialize (Bs _ Hr). cbn in Bs. pose proof (exp_pos (r - m)). lra. }
  unfold softmax. rewrite Hm. rewrite E, Es, map_map.
  rewrite (nth_indep _ NaN (xdiv (Fin (f NaN)) (Fin s))) by now rewrite map_length.
  rewrite (map_nth (fun x => xdiv (Fin (f x)) (Fin s)) l NaN i).
  exists (f (nth i l NaN) / s). split; [|split].
  - cbn. destruct (Req_EM_T s 0); [lra|reflexivity].
  - apply Rmult_le_pos; auto. left. now apply Rinv_0_lt_compat.
  - split.
    + intros H. destruct (nth i l NaN) as [r| | |]; [now eexists|..]; exfalso; cbn in H; unfold Rdiv in H; rewrite Rmult_0_l in H; lra.
    + intros [r ->]. cbn. apply Rdiv_lt_0_compat; auto. apply exp_pos.
Qed.
Lemma nan_to_neginf_fon x : fin_or_ninf (nan_to_neginf x).
Proof. destruct x; cbn; [right; now eexists|now left..]. Qed.

(** ** covariance tiles *)
Open Scope nat_scope.
Definition mem (x : nat) (l : list nat) : bool := existsb (Nat.eqb x) l.
Lemma put_row_spec C a ri tile : forall idx b covs, (forall q, q < length idx -> tile a (b + q) = C ri (nth q idx 0)) ->
  forall x y, put_row covs a ri idx b tile x y = if (x =? ri) && mem y idx then C x y else covs x y.
Proof.
  induction idx as [|j idx IH]; intros b covs H x y.
  - cbn. now rewrite andb_false_r.
  - cbn [put_row]. rewrite IH.
    + cbn [mem existsb]. fold (mem y idx). destruct (Nat.eqb_spec x ri) as [->|]; cbn [andb]; auto.
      destruct (mem y idx) eqn:M; [now rewrite orb_true_r|]. rewrite orb_false_r.
      destruct (Nat.eqb_spec y j) as [->|]; auto. specialize (H 0 ltac:(cbn; lia)). rewrite Nat.add_0_r in H. exact H.
    + intros q Hq. specialize (H (S q) ltac:(cbn; lia)). rewrite Nat.add_succ_r in H. exact H.
Qed.
Lemma put_tile_spec C idx tile : forall rows a covs,
  (forall p q, p < length rows -> q < length idx -> tile (a + p) q = C (nth p rows 0) (nth q idx 0)) ->
  forall x y, put_tile covs rows a idx tile x y = if mem x rows && mem y idx then C x y else covs x y.
Proof.
  induction rows as [|i rows IH]; intros a covs H x y; auto.
  cbn [put_tile]. rewrite IH.
  - rewrite (put_row_spec C).
    + cbn [mem existsb]. fold (mem x rows). destruct (mem x rows) eqn:M; cbn [andb orb]; [rewrite orb_true_r|rewrite orb_false_r]; cbn [andb]; auto.
      destruct (mem y idx); auto. now rewrite andb_false_r.
    + intros q Hq. specialize (H 0 q ltac:(cbn; lia) Hq). rewrite Nat.add_0_r in H. exact H.
  - intros p q Hp Hq. specialize (H (S p) q ltac:(cbn; lia) Hq). rewrite Nat.add_succ_r in H. exact H.
Qed.
Lemma mem_spec x l : mem x l = true <-> In x l.
Proof.
  unfold mem. rewrite existsb_exists. split; [intros [y [H E]]; apply Nat.eqb_eq in E; now subst|].
  intros H. exists x. split; auto. apply Nat.eqb_refl.
Qed.
Fixpoint tile_hit (parameters : list string) (ts : list (list string)) (x y : nat) : bool :=
  match ts with
  | [] => false
  | t :: rest => match map_opt (index_of parameters) t with
                 | Some idx => mem x idx && mem y idx
                 | None => false
                 end || tile_hit parameters rest x y
  end.
Lemma tiles_spec parameters data : forall ts covs r, tiles parameters data ts covs = Some r ->
  forall x y, r x y = if tile_hit parameters ts x y then col_cov data x y else covs x y.
Proof.
  induction ts as [|t ts IH]; intros covs r E x y; cbn in E.
  - injection E as <-. reflexivity.
  - cbn [tile_hit]. destruct (map_opt (index_of parameters) t) as [idx|]; [|discriminate].
    destruct (any_nan (length idx) (cov_matrix idx data)); [discriminate|].
    rewrite (IH _ _ E). rewrite (put_tile_spec (col_cov data)); [|reflexivity].
    destruct (tile_hit parameters ts x y); [now rewrite orb_true_r|]. now rewrite orb_false_r.
Qed.
Lemma index_of_nth_NoDup l i : NoDup l -> i < length l -> index_of l (nth i l EmptyString) = Some i.
Proof.
  revert i. induction l as [|y l IH]; intros i N H; cbn in H; [lia|]. apply NoDup_cons_iff in N. destruct N as [N1 N2].
  destruct i as [|i]; cbn.
  - now rewrite String.eqb_refl.
  - destruct (String.eqb_spec y (nth i l EmptyString)) as [E|_].
    + exfalso. apply N1. rewrite E. apply nth_In. lia.
    + rewrite IH by (auto; lia). reflexivity.
Qed.
Lemma tile_idx_spec parameters t idx x : NoDup parameters -> map_opt (index_of parameters) t = Some idx -> x < length parameters ->
  (In x idx <-> In (nth x parameters EmptyString) t).
Proof.
  intros N E Hx. pose proof (map_opt_length _ _ _ E) as L. split; intros H.
  - destruct (In_nth _ _ 0 H) as [k [Hk Ek]]. rewrite L in Hk.
    pose proof (map_opt_nth _ _ _ k EmptyString 0 E Hk) as M. rewrite Ek in M. apply index_of_lt in M. destruct M as [_ M].
    rewrite M. now apply nth_In.
  - destruct (In_nth _ _ EmptyString H) as [k [Hk Ek]].
    pose proof (map_opt_nth _ _ _ k EmptyString 0 E Hk) as M. rewrite Ek in M.
    rewrite index_of_nth_NoDup in M by auto. injection M as M. rewrite M. apply nth_In. now rewrite L.
Qed.
Lemma map_opt_total {A B} (f : A -> option B) l : (forall a, In a l -> exists b, f a = Some b) -> exists r, map_opt f l = Some r.
Proof.
  induction l as [|a l IH]; intros H; [now exists []|]. cbn. destruct (H a) as [b ->]; [now left|].
  destruct IH as [r ->]; [intros; apply H; now right|]. now eexists.
Qed.

(** ** means and covariances of finite tables *)
Open Scope R_scope.
From Verif Require Import Spec_Population.
Lemma xsum_Fin (l : list R) : xsum (map Fin l) = Fin (total l).
Proof. induction l; cbn; auto. fold (xsum (map Fin l)). now rewrite IHl. Qed.
Section Moments.
Variable data : list (list R).
Variable n : nat.
Hypothesis Hrect : forall r, In r data -> length r = n.
Lemma cell_of_real r j : In r data -> (j < n)%nat -> cell j (map Fin r) = Fin (nth j r 0).
Proof.
  intros Hr Hj. unfold cell. rewrite (nth_indep _ NaN (Fin 0)) by (rewrite map_length, (Hrect r Hr); auto).
  apply map_nth.
Qed.
Lemma col_mean_real j : (j < n)%nat -> (0 < length data)%nat -> col_mean (of_reals data) j = Fin (sample_mean data j).
Proof.
  intros Hj Hl. unfold col_mean, column, of_reals, nat_x. rewrite map_map, map_length.
  replace (map (fun x => cell j (map Fin x)) data) with (map Fin (map (fun r => nth j r 0) data)).
  - rewrite xsum_Fin. cbn. destruct (Req_EM_T (INR (length data)) 0) as [E|_]; [|reflexivity].
    exfalso. apply (not_INR (length data) 0) in E; [easy|lia].
  - rewrite map_map. apply map_ext_in. intros r Hr. symmetry. now apply cell_of_real.
Qed.
Lemma cov_num i j : (i < n)%nat -> (j < n)%nat -> (0 < length data)%nat ->
  xsum (map (fun r => xmul (xsub (cell i r) (col_mean (of_reals data) i)) (xsub (cell j r) (col_mean (of_reals data) j))) (of_reals data))
  = Fin (total (map (fun r => (nth i r 0 - sample_mean data i) * (nth j r 0 - sample_mean data j)) data)).
Proof.
  intros Hi Hj Hl. rewrite !col_mean_real by auto. unfold of_reals. rewrite map_map, <- xsum_Fin. f_equal.
  rewrite map_map. apply map_ext_in. intros r Hr. rewrite !cell_of_real by auto. reflexivity.
Qed.
Lemma col_cov_real i j : (i < n)%nat -> (j < n)%nat -> (1 < length data)%nat ->
  col_cov (of_reals data) i j = Fin (sample_cov data i j).
Proof.
  intros Hi Hj Hl. unfold col_cov. rewrite cov_num by (auto; lia). unfold nat_x, of_reals. rewrite map_length. cbn [xdiv].
  destruct (Req_EM_T (INR (length data - 1)) 0) as [E|_]; [|reflexivity].
  exfalso. apply (not_INR (length data - 1) 0) in E; [easy|lia].
Qed.
Lemma col_cov_single i j : (i < n)%nat -> (j < n)%nat -> length data = 1%nat -> col_cov (of_reals data) i j = NaN.
Proof.
  intros Hi Hj Hl. unfold col_cov. rewrite cov_num by (auto; lia). unfold nat_x, of_reals. rewrite map_length, Hl.
  cbn [Nat.sub INR].
  replace (total _) with 0.
  - cbn. destruct (Req_EM_T 0 0); [|lra]. unfold xinf_times.
    repeat match goal with |- context [Rlt_dec ?u ?v] => destruct (Rlt_dec u v); [lra|] end. reflexivity.
  - destruct data as [|r [|r' d]]; try discriminate. unfold sample_mean. cbn. field.
Qed.
End Moments.
Lemma any_nan_false k m : (forall a b, (a < k)%nat -> (b < k)%nat -> m a b <> NaN) -> any_nan k m = false.
Proof.
  intros H. unfold any_nan. apply not_true_is_false. intros E. apply existsb_exists in E. destruct E as [a [Ha E]].
  apply existsb_exists in E. destruct E as [b [Hb E]]. apply in_seq in Ha. apply in_seq in Hb.
  specialize (H a b ltac:(lia) ltac:(lia)). destruct (m a b); easy.
Qed.
Lemma any_nan_true k m : (0 < k)%nat -> m 0%nat 0%nat = NaN -> any_nan k m = true.
Proof. intros Hk E. destruct k; [lia|]. cbn. now rewrite E. Qed.

(** ** error filling *)
Open Scope nat_scope.
Lemma set_cells_length head vals r : length (set_cells head vals r) = length r.
Proof. revert vals r. induction head as [|h hs IH]; intros [|v vs] r; cbn; auto. now rewrite IH, set_cell_length. Qed.
Lemma set_cells_other head vals r c : ~ In c head -> cell c (set_cells head vals r) = cell c r.
Proof.
  revert vals r. induction head as [|h hs IH]; intros [|v vs] r H; cbn [set_cells]; auto.
  rewrite IH by (intros Hc; apply H; now right). apply cell_set_other. intros ->. apply H. now left.
Qed.
Lemma set_cells_same head vals r k : NoDup head -> length vals = length head -> (forall h, In h head -> h < length r) -> k < length head ->
  cell (nth k head 0) (set_cells head vals r) = nth k vals NaN.
Proof.
  revert vals r k. induction head as [|h hs IH]; intros [|v vs] r k N L B Hk; cbn in L, Hk; try lia.
  apply NoDup_cons_iff in N. destruct N as [N1 N2]. destruct k as [|k]; cbn [set_cells nth].
  - rewrite set_cells_other by auto. apply cell_set_same. apply B. now left.
  - apply IH; auto; try lia. intros x Hx. rewrite set_cell_length. apply B. now right.
Qed.
Lemma map2_length {A B C} (f : A -> B -> C) la lb : length la = length lb -> length (map2 f la lb) = length la.
Proof. revert lb. induction la; intros [|b lb]; cbn; auto; lia. Qed.
Lemma map2_nth {A B C} (f : A -> B -> C) la lb j da db dc : length la = length lb -> j < length la ->
  nth j (map2 f la lb) dc = f (nth j la da) (nth j lb db).
Proof. revert lb j. induction la as [|a la IH]; intros [|b lb] [|j]; cbn; auto; try lia. intros. apply IH; lia. Qed.

Lemma fill_keys sz hs H index data keys : forall i noisy,
  fst (fill sz hs H index i data keys noisy) = map (fun g => take (Seed 0) keys (index * H + g)) (seq i (length hs)).
Proof.
  induction hs as [|[h f] hs IH]; intros i noisy; auto. cbn [fill length seq map].
  specialize (IH (S i) (map2 (fun r o => set_cells h o r) noisy (f (map (fun j => cell j data) h) sz (take (Seed 0) keys (index * H + i))))).
  destruct (fill sz hs H index (S i) data keys _) as [ks M]. cbn [fst] in *. now rewrite IH.
Qed.
Definition shaped (sz n : nat) (hf : list nat * err_fn) : Prop :=
  (forall h, In h (fst hf) -> h < n)
  /\ forall v k, length (snd hf v sz k) = sz /\ forall r, In r (snd hf v sz k) -> length r = length (fst hf).
Lemma fill_cells sz n hs H index data keys : List.Forall (shaped sz n) hs -> NoDup (concat (map fst hs)) ->
  forall i noisy, length noisy = sz -> (forall r, In r noisy -> length r = n) ->
  let M := snd (fill sz hs H index i data keys noisy) in
  length M = sz /\ (forall r, In r M -> length r = n)
  /\ (forall j c, ~ In c (concat (map fst hs)) -> cell c (nth j M []) = cell c (nth j noisy []))
  /\ (forall g k j, g < length hs -> let hf := nth g hs ([], fun _ _ _ => []) in k < length (fst hf) -> j < sz ->
       cell (nth k (fst hf) 0) (nth j M [])
       = nth k (nth j (snd hf (map (fun c => cell c data) (fst hf)) sz (take (Seed 0) keys (index * H + (i + g)))) []) NaN).
Proof.
  intros HF. induction HF as [|[h f] hs [Hb Ho] HF IH]; intros N i noisy L R.
  - cbn. repeat split; auto; intros; lia.
  - cbn [map concat fst] in N. cbn [fst snd] in Hb, Ho.
    assert (N1 : NoDup h /\ NoDup (concat (map fst hs)) /\ forall x, In x h -> ~ In x (concat (map fst hs))).
    { clear -N. induction h as [|x h IH]; cbn in N; [repeat split; auto; constructor|].
      apply NoDup_cons_iff in N. destruct N as [A B]. destruct (IH B) as [C [D E]]. rewrite in_app_iff in A.
      split; [|split]; auto; [constructor; tauto|]. intros y [<-|Hy]; [tauto|auto]. }
    destruct N1 as [Nh [Nr Nd]].
    set (k0 := take (Seed 0) keys (index * H + i)).
    set (out := f (map (fun j => cell j data) h) sz k0).
    destruct (Ho (map (fun j => cell j data) h) k0) as [Lo Ro]. fold out in Lo, Ro.
    set (noisy' := map2 (fun r o => set_cells h o r) noisy out).
    assert (L' : length noisy' = sz) by (unfold noisy'; rewrite map2_length; [exact L|now transitivity sz]).
    assert (Nth : forall j, j < sz -> nth j noisy' [] = set_cells h (nth j out []) (nth j noisy [])).
    { intros j Hj. unfold noisy'. apply (map2_nth (fun r o => set_cells h o r) noisy out j [] [] []); [now transitivity sz|]. apply Nat.lt_le_trans with sz; [exact Hj|].
      apply Nat.eq_le_incl. symmetry. exact L. }
    assert (R' : forall r, In r noisy' -> length r = n).
    { intros r Hr. destruct (In_nth _ _ [] Hr) as [j [Hj <-]]. rewrite L' in Hj. rewrite Nth by auto.
      rewrite set_cells_length. apply R. apply nth_In. rewrite L. exact Hj. }
    specialize (IH Nr (S i) noisy' L' R'). cbn [fill]. fold k0. fold out. fold noisy'.
    destruct (fill sz hs H index (S i) data keys noisy') as [ks M]. cbn [snd] in *.
    destruct IH as [A [B [C D]]]. split; [exact A|]. split; [exact B|]. split.
    + intros j c Hc. cbn [map concat fst] in Hc. rewrite in_app_iff in Hc. rewrite C by tauto.
      destruct (Nat.lt_ge_cases j sz) as [Hj|Hj].
      * rewrite Nth by auto. apply set_cells_other. tauto.
      * rewrite !nth_overflow by lia. reflexivity.
    + intros [|g] k j Hg Hk Hj.
      * cbn [nth fst snd] in *. rewrite Nat.add_0_r. fold k0. fold out.
        rewrite C by (apply Nd; now apply nth_In). rewrite Nth by auto. apply set_cells_same; auto.
        -- apply Ro. apply nth_In. rewrite Lo. exact Hj.
        -- intros x Hx. rewrite R; auto. apply nth_In. rewrite L. exact Hj.
      * cbn [nth] in *. cbn in Hg. rewrite D by (auto; lia). rewrite Nat.add_succ_r. reflexivity.
Qed.

Lemma take_split key m i : i < m -> take (Seed 0) (split_n key m) i = Child key i.
Proof.
  intros H. unfold take, split_n. rewrite map_length, seq_length. replace (Nat.min i (m - 1)) with i by lia.
  rewrite (nth_indep _ _ (Child key 0)) by now rewrite map_length, seq_length.
  rewrite map_nth, seq_nth by auto. reflexivity.
Qed.
