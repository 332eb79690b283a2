(** Properties C47-C50: the flowMC driver. *)
From Coq Require Import String List Arith Bool ZArith Reals Lra Lia.
From Coquelicot Require Import Coquelicot.
From Verif Require Import Model_X Spec_X Proofs_X Model_Key Model_FlowMC Spec_FlowMC Proofs_FlowMC.
Import ListNotations.
Open Scope nat_scope.

(** ** C47 *)
(** the bundle's order: training loops, the transition, production loops *)
Definition strategy_sequence (t p : nat) : list string :=
  concat (repeat ["local_stepper"; "update_global_step"; "model_trainer"; "update_model"; "global_stepper"; "update_local_step"]%string t)
  ++ ["reset_steppers"; "update_state"]%string
  ++ concat (repeat ["local_stepper"; "update_global_step"; "global_stepper"; "update_local_step"]%string p).
Theorem C47_sequence : forall t p, exists sch,
  sample_schedule bundle_strategies (bundle_order t p) = Some sch
  /\ bundle_order t p = strategy_sequence t p
  /\ executed sch = strategy_sequence t p
  /\ length (tuning sch) = t /\ length (sampling sch) = p.
Proof.
  intros t p. eexists. split; [apply bundle_schedule|]. unfold executed, strategy_sequence. cbn [tuning transition sampling].
  split; [|split; [|split]].
  - unfold bundle_order. now rewrite <- !concat_repeat.
  - reflexivity.
  - apply repeat_length.
  - apply repeat_length.
Qed.
Print Assumptions C47_sequence.
(** an order given directly to the sampler need not be run completely *)
Theorem C47_custom_order_refuted : exists order sch,
  sample_schedule bundle_strategies order = Some sch /\ length order = 5 /\ length (executed sch) = 2.
Proof.
  exists ["local_stepper"; "update_global_step"; "global_stepper"; "update_local_step"; "local_stepper"]%string.
  eexists. split; [reflexivity|]. split; reflexivity.
Qed.
Print Assumptions C47_custom_order_refuted.
(** a name that is not a strategy is rejected before anything runs *)
Theorem C47_unknown_rejected : forall strategies order s, In s order -> ~ In s strategies ->
  sample_schedule strategies order = None.
Proof.
  intros st order s Hin Hn. unfold sample_schedule. destruct (forallb _ order) eqn:E; auto.
  rewrite forallb_forall in E. specialize (E s Hin). unfold str_in in E. apply existsb_exists in E.
  destruct E as [x [Hx E]]. apply String.eqb_eq in E. subst. easy.
Qed.
Print Assumptions C47_unknown_rejected.
Example C47_nonvacuous : length (bundle_order 2 3) = 26. Proof. reflexivity. Qed.

(** ** C48 *)
(** The samples file is rewritten 4p times. After the strategies of production loop j it holds, for
    each chain in order, the rows returned by the local stepper in production loops 0..j (its calls
    number t, ..., t+j), in order and nothing else, except that rows with a coordinate of minus
    infinity are left out. *)
Theorem C48_saved_samples : forall local_out global_out nl ng n_chains n_dims t p,
  (forall k c, length (local_out k c) = nl) -> (forall k c, length (global_out k c) = ng) -> 0 < n_dims ->
  exists versions, saved_versions local_out global_out nl ng n_chains n_dims t p = Some versions
  /\ length versions = 4 * p
  /\ forall k, k < 4 * p -> nth k versions []
     = concat (map (fun c => filter (fun r => negb (existsb isneginf r))
                               (concat (map (fun j => local_out (t + j) c) (seq 0 (S (k / 4)))))) (seq 0 n_chains)).
Proof.
  intros lo go nl ng nc nd t p Hl Hg Hd. eexists. split; [now apply saved_spec|]. split.
  - apply blocks_length.
  - intros k Hk. exact (nth_blocks (fun j => expected lo nc t (S j)) [] p k Hk).
Qed.
Print Assumptions C48_saved_samples.
(** when no local sample has a coordinate of minus infinity, the final file holds all of them *)
Theorem C48_complete : forall local_out global_out nl ng n_chains n_dims t p,
  (forall k c, length (local_out k c) = nl) -> (forall k c, length (global_out k c) = ng) -> 0 < n_dims -> 0 < p ->
  (forall k c r, In r (local_out k c) -> ~ In NInf r) ->
  exists versions, saved_versions local_out global_out nl ng n_chains n_dims t p = Some versions
  /\ last versions [] = concat (map (fun c => concat (map (fun j => local_out (t + j) c) (seq 0 p))) (seq 0 n_chains)).
Proof.
  intros lo go nl ng nc nd t p Hl Hg Hd Hp Hf.
  destruct (C48_saved_samples lo go nl ng nc nd t p Hl Hg Hd) as [v [E [L N]]]. exists v. split; [exact E|].
  assert (La : forall {A} (l : list A) d, last l d = nth (length l - 1) l d).
  { intros A l d. induction l as [|x [|y l] IH]; auto. change (last (x :: y :: l) d) with (last (y :: l) d).
    rewrite IH. cbn [length]. now rewrite !Nat.sub_succ, !Nat.sub_0_r. }
  rewrite La, L, N by lia. replace (S ((4 * p - 1) / 4)) with p.
  - f_equal. apply map_ext. intros c. apply filter_all_true. intros r Hr.
    apply in_concat in Hr. destruct Hr as [b [Hb Hr]]. apply in_map_iff in Hb. destruct Hb as [j [<- _]].
    destruct (existsb isneginf r) eqn:Ex; auto. apply existsb_exists in Ex. destruct Ex as [x [Hx Ex]].
    destruct x; try discriminate. exfalso. now apply (Hf _ _ _ Hr).
  - replace (4 * p - 1) with (3 + (p - 1) * 4) by lia. rewrite Nat.div_add by lia. cbn. lia.
Qed.
Print Assumptions C48_complete.
Example C48_nonvacuous :
  saved_versions (fun k c => [[Fin 1]; [NInf]]) (fun k c => [[Fin 2]]) 2 1 1 1 1 2
  = Some [[[Fin 1]]; [[Fin 1]]; [[Fin 1]]; [[Fin 1]]; [[Fin 1]; [Fin 1]]; [[Fin 1]; [Fin 1]]; [[Fin 1]; [Fin 1]]; [[Fin 1]; [Fin 1]]].
Proof. reflexivity. Qed.

(** ** C49 *)
Open Scope R_scope.
Lemma quadratic_even n Minv p : quadratic n Minv (vneg p) = quadratic n Minv p.
Proof.
  unfold quadratic. f_equal. f_equal. apply map_ext. intros i.
  assert (E : forall l, fold_right Rplus 0 (map (fun j => Minv i j * vneg p j) l) = - fold_right Rplus 0 (map (fun j => Minv i j * p j) l)).
  { induction l as [|j l IH]; cbn; [ring|]. rewrite IH. unfold vneg at 1. ring. }
  rewrite E. unfold vneg. ring.
Qed.
(** for every potential, mass matrix, step size and number of steps: integrate, negate the momentum,
    integrate again and negate again *)
Theorem C49_reversible : forall n Minv velocity gradient step_size n_leapfrog x p x' p',
  gradient_of (quadratic n Minv) velocity ->
  leapfrog_step velocity gradient step_size n_leapfrog x p = (x', p') ->
  exists x'' p'', leapfrog_step velocity gradient step_size n_leapfrog x' (fun i => - p' i) = (x'', p'')
  /\ x'' = x /\ (fun i => - p'' i) = p.
Proof.
  intros n Minv v g h k x p x' p' Hv E. exists x, (vneg p). split.
  - apply (leapfrog_reversible v g h (even_gradient_odd (quadratic n Minv) v (quadratic_even n Minv) Hv)). exact E.
  - split; [reflexivity|]. apply vneg_vneg.
Qed.
Print Assumptions C49_reversible.
(** one step of the integrator without inner iterations is the usual half kick, drift, half kick *)
Theorem C49_half_kicks : forall velocity gradient h x p,
  leapfrog_step velocity gradient h 0 x p
  = (let p1 := fun i => p i - h / 2 * gradient x i in
     let x1 := fun i => x i + h * velocity p1 i in
     (x1, fun i => p1 i - h / 2 * gradient x1 i)).
Proof.
  intros v g h x p. rewrite leapfrog_moves. cbn [schedule_moves middle app moves fold_left apply_move fst snd].
  assert (E : vadd p (vneg (vscale (h * (1 / 2)) (g x))) = (fun i => p i - h / 2 * g x i)).
  { apply vec_ext. intros i. unfold vadd, vneg, vscale. field. }
  rewrite E. cbv zeta. set (p1 := fun i => p i - h / 2 * g x i).
  change (vadd x (vscale h (v p1))) with (fun i => x i + h * v p1 i). f_equal.
  apply vec_ext. intros i. unfold vadd, vneg, vscale. generalize (g (fun i0 => x i0 + h * v p1 i0) i). intros y.
  unfold p1. field.
Qed.
Print Assumptions C49_half_kicks.
(** a one-dimensional unit mass: the velocity is the momentum *)
Example C49_nonvacuous : gradient_of (quadratic 1 (fun _ _ => 1)) (fun p i => if (i =? 0)%nat then p 0%nat else 0).
Proof.
  intros p i. unfold quadratic. cbn. destruct (Nat.eqb_spec i 0) as [->|Hi].
  - auto_derive; auto. cbn. field.
  - destruct i as [|i]; [easy|]. auto_derive; auto.
Qed.

(** ** C50 *)
Section C50.
Variables (velocity gradient : vec -> vec) (step_size : R) (n_leapfrog : nat) (logpdf kinetic : vec -> X)
  (draw_momentum : rng -> vec) (draw_uniform : rng -> R).
Let kernel := hmc_kernel velocity gradient step_size n_leapfrog logpdf kinetic draw_momentum draw_uniform.
Let steps := hmc_steps velocity gradient step_size n_leapfrog logpdf kinetic draw_momentum draw_uniform.
Let proposal (key : rng) (x : vec) : vec := fst (leapfrog_step velocity gradient step_size n_leapfrog x (draw_momentum (Child key 0))).

(** each step keeps the position and cached value or moves to the proposal and its log-density *)
Theorem C50_step : forall key x lp, 
  (kernel key x lp = (x, lp, false)) \/ (kernel key x lp = (proposal key x, logpdf (proposal key x), true)).
Proof.
  intros key x lp. unfold kernel, hmc_kernel, proposal. cbn [split2].
  destruct (leapfrog_step velocity gradient step_size n_leapfrog x (draw_momentum (Child key 0))) as [x' p'].
  cbn [fst]. rewrite xopp_xopp. destruct (xltb _ _); [right|left]; reflexivity.
Qed.
(** after any number of steps the cached value is the log-density of the position *)
Theorem C50_cache : forall keys x lp x' lp', lp = logpdf x -> steps keys x lp = (x', lp') -> lp' = logpdf x'.
Proof.
  induction keys as [|k ks IH]; intros x lp x' lp' H E.
  - cbn in E. injection E as -> ->. exact H.
  - unfold steps in E. cbn [hmc_steps] in E. fold steps in E. fold kernel in E.
    destruct (C50_step k x lp) as [K|K]; rewrite K in E; eapply IH; try exact E; auto.
Qed.
(** with finite energies the move is accepted exactly when the uniform draw is below the exponential
    of the energy difference *)
Theorem C50_acceptance : forall key x a b K K', let m := draw_momentum (Child key 0) in
  let p' := snd (leapfrog_step velocity gradient step_size n_leapfrog x m) in
  logpdf (proposal key x) = Fin b -> kinetic m = Fin K -> kinetic p' = Fin K' -> 0 <= draw_uniform (Child key 1) ->
  (snd (kernel key x (Fin a)) = true <-> draw_uniform (Child key 1) < exp ((K - a) - (K' - b))).
Proof.
  intros key x a b K K' m p' Hb HK HK' Hu. unfold kernel, hmc_kernel. cbn [split2]. unfold proposal in Hb. fold m in Hb |- *.
  fold p' in HK'. unfold p' in HK'. clear p'.
  destruct (leapfrog_step velocity gradient step_size n_leapfrog x m) as [x' p']. cbn [fst snd] in *.
  rewrite Hb, HK, HK'. cbn [xopp xadd xsub snd].
  destruct (Req_dec (draw_uniform (Child key 1)) 0) as [E|E].
  - rewrite E. unfold xln. destruct (Rlt_dec 0 0); [lra|]. destruct (Req_EM_T 0 0); [|lra]. cbn [xltb].
    split; auto. intros _. apply exp_pos.
  - rewrite xln_pos by lra. cbn [xltb]. set (D := - a + K + - (- b + K')).
    replace (K - a - (K' - b)) with D by (unfold D; ring).
    destruct (Rlt_dec (ln (draw_uniform (Child key 1))) D) as [H|H]; split; auto.
    + intros _. rewrite <- (exp_ln (draw_uniform (Child key 1))) by lra. now apply exp_increasing.
    + discriminate.
    + intros L. exfalso. apply H. rewrite <- (ln_exp D). apply ln_increasing; lra.
Qed.
(** a proposal of density zero or of undefined density is never accepted from a point of positive density *)
Theorem C50_no_zero_density : forall key x a K, let m := draw_momentum (Child key 0) in
  let p' := snd (leapfrog_step velocity gradient step_size n_leapfrog x m) in
  logpdf (proposal key x) = NInf \/ logpdf (proposal key x) = NaN ->
  kinetic m = Fin K -> kinetic p' <> NInf ->
  kernel key x (Fin a) = (x, Fin a, false).
Proof.
  intros key x a K m p' Hb HK HK'. unfold kernel, hmc_kernel. cbn [split2]. unfold proposal in Hb. fold m in Hb |- *.
  fold p' in HK'. unfold p' in HK'. clear p'.
  destruct (leapfrog_step velocity gradient step_size n_leapfrog x m) as [x' p']. cbn [fst snd] in *.
  rewrite HK. cbn [xopp xadd].
  assert (F : xltb (xln (Fin (draw_uniform (Child key 1)))) (xsub (Fin (- a + K)) (xadd (xopp (logpdf x')) (kinetic p'))) = false).
  { generalize (xln (Fin (draw_uniform (Child key 1)))). intros u.
    destruct Hb as [-> | ->]; destruct (kinetic p'); cbn; try easy; destruct u; reflexivity. }
  now rewrite F.
Qed.
End C50.
Print Assumptions C50_step.
Print Assumptions C50_cache.
Print Assumptions C50_acceptance.
Print Assumptions C50_no_zero_density.
(** a flat target is always accepted *)
Example C50_nonvacuous :
  snd (hmc_kernel (fun p => p) (fun _ _ => 0) 1 0 (fun _ => Fin 0) (fun _ => Fin 1) (fun _ _ => 1) (fun _ => 1/2) (Seed 0) (fun _ => 0) (Fin 0)) = true.
Proof.
  apply (proj2 (C50_acceptance (fun p => p) (fun _ _ => 0) 1 0 (fun _ => Fin 0) (fun _ => Fin 1) (fun _ _ => 1) (fun _ => 1/2) (Seed 0) (fun _ => 0) 0 0 1 1
     eq_refl eq_refl eq_refl ltac:(lra))).
  replace (1 - 0 - (1 - 0)) with 0 by ring. rewrite exp_0. lra.
Qed.
