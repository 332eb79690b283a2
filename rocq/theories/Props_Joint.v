(** Properties C13-C16 and C59: mixtures, joints and lazy joints. *)
From Coq Require Import String Reals Lra Lia List Bool Permutation.
From Coquelicot Require Import Hierarchy Derive.
From Verif Require Import Model_X Spec_X Proofs_X Model_Likelihood Model_Joint Spec_Joint
     Spec_MonteCarlo Proofs_MonteCarlo Proofs_Joint Proofs_Mixture.
Import ListNotations.
Open Scope R_scope.

(** C13: the mixture density is the sum of scale times density over the components whose support
    contains the point. *)
Theorem C13_mixture_density :
  forall cs value, Forall (good_component value) cs ->
  mixture_log_prob true cs value = log_of (rsum (map (weighted_density value) cs)).
Proof. exact mixture_spec. Qed.
Print Assumptions C13_mixture_density.

Theorem C13_neginf_iff_no_component_contributes :
  forall cs value, Forall (good_component value) cs ->
  (mixture_log_prob true cs value = NInf <-> Forall (fun c => weighted_density value c = 0) cs).
Proof. exact mixture_neginf_iff. Qed.
Print Assumptions C13_neginf_iff_no_component_contributes.

Theorem C13_component_order_irrelevant :
  forall explicit cs cs' value, Permutation cs cs' ->
  mixture_log_prob explicit cs value = mixture_log_prob explicit cs' value.
Proof. exact mixture_permutation. Qed.
Print Assumptions C13_component_order_irrelevant.

Definition ex_in : component := mkcomp (Fin 0) (fun _ => Fin 1) (fun _ => true) false.
Definition ex_out : component := mkcomp (Fin 2) (fun _ => Fin 3) (fun _ => false) false.
Definition ex_validating : component := mkcomp (Fin 2) (fun _ => NInf) (fun _ => false) true.
Example C13_nonvacuous :
  Forall (good_component [Fin 0]) [ex_in; ex_out; ex_validating]
  /\ mixture_log_prob true [ex_in; ex_out; ex_validating] [Fin 0] = Fin 1.
Proof.
  assert (H : Forall (good_component [Fin 0]) [ex_in; ex_out; ex_validating]).
  { repeat constructor; simpl; auto; try congruence. }
  split; auto. rewrite C13_mixture_density by auto. cbn.
  replace (exp 0 * exp 1 + (0 + (0 + 0))) with (exp 1) by (rewrite exp_0; ring).
  unfold log_of. destruct (Rlt_dec 0 (exp 1)) as [_|H']; [now rewrite ln_exp|].
  exfalso. apply H', exp_pos.
Qed.

(** Without an explicit support (the default) nothing is masked: a component is counted with
    whatever its log density formula gives outside its support. *)
Theorem C13_no_masking_without_explicit_support :
  forall cs value,
  Forall (fun c => fin_or_ninf (c_log_scale c) /\ fin_or_ninf (c_lp c value)) cs ->
  mixture_log_prob false cs value
  = log_of (rsum (map (fun c => wexp (c_log_scale c) * wexp (c_lp c value)) cs)).
Proof. exact mixture_unmasked. Qed.
Print Assumptions C13_no_masking_without_explicit_support.

Theorem C13_default_support_refuted :
  exists cs value, Forall (good_component value) cs
  /\ mixture_log_prob false cs value <> log_of (rsum (map (weighted_density value) cs)).
Proof.
  exists [ex_out], [Fin 0]. split; [repeat constructor; simpl; auto; congruence|].
  rewrite C13_no_masking_without_explicit_support by (repeat constructor; simpl; auto).
  cbn. intros E. apply log_of_inj in E; pose proof (exp_pos 2); pose proof (exp_pos 3); nra.
Qed.
Print Assumptions C13_default_support_refuted.

(** C14 *)
Open Scope nat_scope.
Theorem C14_joint_density_is_sum_over_pieces :
  forall K (ms : list (dist K)) s parts, cut_as ms parts ->
  log_prob (Joint ms s) (concat parts) = sum_log_probs ms parts.
Proof. exact @joint_log_prob_spec. Qed.
Print Assumptions C14_joint_density_is_sum_over_pieces.

Theorem C14_joint_support_is_conjunction :
  forall K (ms : list (dist K)) parts, cut_as ms parts ->
  in_support (Joint ms None) (concat parts) = all_supports ms parts.
Proof. exact @joint_support_spec. Qed.
Print Assumptions C14_joint_support_is_conjunction.

(** the slices are consecutive, disjoint and cover every coordinate once *)
Theorem C14_slices_partition_the_event :
  forall K (ms : list (dist K)),
  flat_map coords (shaped_values 0 ms) = seq 0 (event_size (Joint ms None))
  /\ length (shaped_values 0 ms) = length ms
  /\ Forall2 (fun d s => length (coords s) = event_size d) ms (shaped_values 0 ms).
Proof.
  intros K ms. split; [exact (slices_partition 0 ms)|].
  generalize 0 as k. induction ms as [|d ms IH]; intros k; [split; constructor|].
  cbn [shaped_values]. destruct (is_scalar d) eqn:E.
  - destruct (IH (k + 1)) as [IH1 IH2]. split; [simpl; congruence|]. constructor; auto.
    destruct d as [[|]|]; try discriminate. reflexivity.
  - destruct (IH (k + event_size d)) as [IH1 IH2]. split; [simpl; congruence|]. constructor; auto.
    simpl. rewrite seq_length. lia.
Qed.
Print Assumptions C14_slices_partition_the_event.

(** every point of the right length is cut into pieces in exactly one way *)
Theorem C14_every_point_is_cut :
  forall K (ms : list (dist K)) v, length v = event_size (Joint ms None) ->
  exists parts, cut_as ms parts /\ v = concat parts
    /\ forall parts', cut_as ms parts' -> v = concat parts' -> parts' = parts.
Proof.
  intros K ms v Hv. destruct (every_point_cuts ms v Hv) as (parts & H & E). exists parts.
  repeat split; auto. clear Hv. subst v. revert parts H.
  induction ms as [|d ms IH]; intros parts H parts' H' E; inversion H; inversion H'; subst; auto.
  simpl in E. assert (L : length y0 = length y) by congruence.
  assert (y = y0 /\ concat l' = concat l'0) as [-> E'].
  { clear - E L. revert y0 L E. induction y as [|a y IH]; intros [|b y0] L E; try discriminate; auto.
    simpl in *. injection E as -> E. destruct (IH y0) as [-> ?]; auto. }
  f_equal. eapply IH; eauto.
Qed.
Print Assumptions C14_every_point_is_cut.

(** a draw is made of one draw per marginal, each from its own key, cut the same way *)
Theorem C14_sample_is_cut_like_the_density :
  forall K split_n (ms : list (dist K)) s key,
  (forall k n, length (split_n k n) = n) -> Forall draws_sized ms ->
  exists parts, sample split_n (Joint ms s) key = concat parts /\ cut_as ms parts
    /\ parts = map (fun p => sample split_n (fst p) (snd p)) (combine ms (split_n key (length ms))).
Proof. intros. now apply joint_sample_cut. Qed.
Print Assumptions C14_sample_is_cut_like_the_density.

Definition lf (n : option nat) (r : R) : dist unit :=
  Leaf n (fun v => Fin r) (fun v => forallb (fun x => xleb (Fin 0) x) v)
       (fun _ => repeat (Fin 1) (match n with None => 1 | Some n => n end)).
Example C14_nonvacuous :
  cut_as [lf None 1; Joint [lf (Some 2) 2; lf None 3] None] [[Fin 5]; [Fin 6; Fin 7; Fin 8]]
  /\ Forall draws_sized [lf None 1; Joint [lf (Some 2) 2; lf None 3] None].
Proof. split; repeat constructor. Qed.

(** C15 *)
Theorem C15_flattening_preserves_size_and_density :
  forall K m (ms : list (dist K)) s s' v,
  length v = event_size (Joint ms s') ->
  event_size (Joint (flatten m ms) s) = event_size (Joint ms s')
  /\ log_prob (Joint (flatten m ms) s) v = log_prob (Joint ms s') v.
Proof. exact @flatten_preserves_log_prob. Qed.
Print Assumptions C15_flattening_preserves_size_and_density.

(** the support is preserved when no nested joint was given an explicit support *)
Theorem C15_flattening_preserves_default_supports_partial :
  forall K m (ms : list (dist K)) v,
  length v = event_size (Joint ms None) -> Forall default_supports ms ->
  in_support (Joint (flatten m ms) None) v = in_support (Joint ms None) v.
Proof. exact @flatten_preserves_support. Qed.
Print Assumptions C15_flattening_preserves_default_supports_partial.

(** an explicit support of a nested joint is lost, by shallow and deep flattening alike *)
Theorem C15_explicit_support_is_dropped_refuted :
  exists (ms : list (dist unit)) v, length v = event_size (Joint ms None)
  /\ in_support (Joint ms None) v = false
  /\ in_support (Joint (flatten Shallow ms) None) v = true
  /\ in_support (Joint (flatten Deep ms) None) v = true.
Proof.
  exists [lf None 1; Joint [lf None 2; lf None 3] (Some (fun v => xleb (nth 0 v NaN) (nth 1 v NaN)))],
         [Fin 0; Fin 2; Fin 1].
  split; [reflexivity|]. cbn. unfold dyn_index, dyn_slice. cbn.
  repeat (match goal with |- context [Rle_dec ?a ?b] => destruct (Rle_dec a b); try lra end).
Qed.
Print Assumptions C15_explicit_support_is_dropped_refuted.

(** after deep flattening no joint is left *)
Theorem C15_deep_flattening_leaves_no_joint :
  forall K (ms : list (dist K)),
  Forall (fun d => match d with Leaf _ _ _ _ => True | Joint _ _ => False end) (flatten Deep ms).
Proof.
  intros K ms. cbn [flatten]. apply Forall_forall. intros d Hd.
  apply in_flat_map in Hd as (d0 & _ & Hd). revert Hd. induction d0 as [s lp su dr|ms0 s IH] using dist_ind'.
  - simpl. intros [<-|[]]. exact I.
  - cbn [flatten_deep]. intros Hd. apply in_flat_map in Hd as (d1 & H1 & Hd).
    rewrite Forall_forall in IH. eapply IH; eauto.
Qed.
Print Assumptions C15_deep_flattening_leaves_no_joint.

Example C15_nonvacuous :
  let ms := [lf None 1; Joint [Joint [lf (Some 2) 2] None; lf None 3] None] in
  Forall default_supports ms /\ flatten Deep ms = [lf None 1; lf (Some 2) 2; lf None 3]
  /\ length (flatten Shallow ms) = 3 /\ length ms = 2.
Proof. repeat constructor. Qed.

(** C16 *)
Theorem C16_lazy_density_chain_rule :
  forall K dsh (ms : list (@marginal K)) deps parts,
  lazy_cut dsh 0 ms parts -> deps_match ms deps (length (concat parts)) ->
  lazy_log_prob dsh ms deps (concat parts) = Some (chain_rule deps ms parts).
Proof. exact @lazy_log_prob_spec. Qed.
Print Assumptions C16_lazy_density_chain_rule.

Theorem C16_lazy_support_of_conditionals :
  forall K dsh (ms : list (@marginal K)) deps parts,
  lazy_cut dsh 0 ms parts -> deps_match ms deps (length (concat parts)) ->
  lazy_support dsh ms deps (concat parts)
  = Some (forallb (fun p => in_support (conditional deps (fst (snd p)) (fst p) (concat parts)) (snd (snd p)))
                  (combine (seq 0 (length ms)) (combine ms parts))).
Proof. exact @lazy_support_spec. Qed.
Print Assumptions C16_lazy_support_of_conditionals.

(** sampling: with an order that respects the dependencies nothing is read before it is drawn
    (the model's sampler would fail), every marginal is drawn once, with its own key, from its
    conditional distribution given the other drawn values *)
Theorem C16_sampling_reads_only_drawn_values :
  forall K split_n (split : K -> K * K) ms deps independent partial_order key,
  respects ms deps independent partial_order ->
  exists parts, lazy_sample split_n split ms deps partial_order independent key = Some (concat parts)
    /\ length parts = length ms
    /\ forall t i m, nth_error (independent ++ partial_order) t = Some i -> nth_error ms i = Some m ->
         exists k, nth_error (subkeys split (length ms) key) t = Some k
           /\ nth i parts [] = sample split_n (conditional_on deps m i parts) k.
Proof. intros. now apply lazy_sample_spec. Qed.
Print Assumptions C16_sampling_reads_only_drawn_values.

(** for scalar marginals the density's conditioning values are the sampler's *)
Theorem C16_density_and_sampler_condition_alike :
  forall K deps i (m : @marginal K) (parts : list (list X)),
  Forall (fun p => length p = 1) parts ->
  (forall i dep k j, In (i, dep) deps -> In (k, j) dep -> j < length parts) ->
  conditional deps m i (concat parts) = conditional_on deps m i parts.
Proof.
  intros K deps i m parts H Hd. unfold conditional, conditional_on. destruct m as [d|f]; auto.
  f_equal. apply map_ext_in. intros [k j] Hj. simpl. f_equal.
  assert (j < length parts).
  { destruct (assoc_nat deps i) as [dep|] eqn:E; [|destruct Hj]. apply (Hd i dep k j); auto.
    clear -E. induction deps as [|[a b] l IH]; simpl in E; [discriminate|].
    destruct (Nat.eqb_spec a i); [injection E as ->; subst; now left|right; auto]. }
  clear Hd Hj. revert j H0. induction H as [|p parts Hp H IH]; intros j Hj; [simpl in Hj; lia|].
  destruct p as [|x [|]]; try discriminate. destruct j; simpl; auto. apply IH. simpl in Hj; lia.
Qed.
Print Assumptions C16_density_and_sampler_condition_alike.

(** with a vector marginal in front they differ: the density reads the event coordinate with the
    number of the marginal *)
Theorem C16_vector_marginals_refuted :
  exists (deps : dependencies) (m : @marginal unit) (parts : list (list X)),
  (forall i dep k j, In (i, dep) deps -> In (k, j) dep -> j < length parts)
  /\ log_prob (conditional deps m 2 (concat parts)) (nth 2 parts [])
     <> log_prob (conditional_on deps m 2 parts) (nth 2 parts []).
Proof.
  exists [(2, [("loc"%string, 1)])],
         (Pending (fun kw => Leaf None (fun _ => match kw with (_, [x]) :: _ => x | _ => NaN end)
                                  (fun _ => true) (fun _ => []))),
         [[Fin 1; Fin 2]; [Fin 3]; [Fin 4]].
  split.
  - intros i dep k j [H|[]]; injection H as <- <-. intros [H|[]]; injection H as <- <-. simpl; lia.
  - cbn. intros H. injection H. lra.
Qed.
Print Assumptions C16_vector_marginals_refuted.

Definition ex_ms : list (@marginal unit) :=
  [Pending (fun kw => Leaf None (fun v => match kw with (_, [x]) :: _ => xadd x (nth 0 v NaN) | _ => NaN end)
                           (fun _ => true) (fun _ => [Fin 7])); Ready (lf None 1)].
Definition ex_deps : dependencies := [(0, [("loc"%string, 1)])].
Example C16_nonvacuous :
  lazy_cut (fun _ => None) 0 ex_ms [[Fin 2]; [Fin 3]] /\ deps_match ex_ms ex_deps 2
  /\ respects ex_ms ex_deps [1] [0].
Proof.
  repeat split; auto.
  - repeat constructor. intros [].
  - intros [<-|[]]. simpl. eauto.
  - intros (f & H). destruct i as [|[|i]]; simpl in H; [left; reflexivity|discriminate|destruct i; discriminate].
  - intros i dep k j [H|[]]; injection H as <- <-. intros [H|[]]; injection H as <- <-. lia.
  - apply perm_swap.
  - intros i [<-|[]]. simpl. eauto.
  - intros [|a pre] i post E; simpl in E; injection E as <- E; [|destruct pre; discriminate].
    exists [("loc"%string, 1)]. split; auto. intros k j [H|[]]; injection H as <- <-. now left.
Qed.

(** C59: mean, variance and cdf of a mixture. *)
Open Scope R_scope.
Theorem C59_variance_is_second_moment_minus_square_partial :
  forall cs, fold_right (fun c acc => let '(s, m, v) := c in exp s + acc) 0 cs = 1 ->
  mixture_variance cs
  = fold_right (fun c acc => let '(s, m, v) := c in exp s * (v + m * m) + acc) 0 cs
    - mixture_mean cs * mixture_mean cs.
Proof. exact mixture_variance_spec. Qed.
Print Assumptions C59_variance_is_second_moment_minus_square_partial.

(** with rates (scales not summing to one) neither mean nor variance are those of the normalised
    mixture, although [sample] draws from the normalised one: one component with rate 2 *)
Theorem C59_rates_refuted :
  exists s m v, mixture_mean [(s, m, v)] <> m /\ mixture_variance [(s, m, v)] <> v.
Proof.
  exists (ln 2), 1, 1. unfold mixture_variance, mixture_mean. simpl. rewrite exp_ln by lra. split; lra.
Qed.
Print Assumptions C59_rates_refuted.

Theorem C59_cdf_is_primitive_of_density :
  forall (cs : list (R * (R -> R) * (R -> R))) x,
  Forall (fun c => is_derive (snd (fst c)) x (snd c x)) cs ->
  is_derive (mixture_cdf (map fst cs)) x
            (fold_right (fun c acc => exp (fst (fst c)) * snd c x + acc) 0 cs).
Proof. exact mixture_cdf_derive. Qed.
Print Assumptions C59_cdf_is_primitive_of_density.
Example C59_nonvacuous :
  fold_right (fun c acc => let '(s, m, v) := c in exp s + acc) 0 [(ln (1/4), 1, 2); (ln (3/4), 5, 6)] = 1
  /\ Forall (fun c => is_derive (snd (fst c)) 3 (snd c 3))
            [(2, (fun x => x), (fun _ => 1)); (1, (fun _ => 5), (fun _ => 0))].
Proof.
  split; [simpl; rewrite !exp_ln by lra; lra|].
  constructor; [|constructor; [|constructor]]; simpl; [apply @is_derive_id|apply @is_derive_const].
Qed.
