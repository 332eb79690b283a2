(** Properties C87-C89: expected counts from neural selection functions. *)
From Coq Require Import String Reals List Lra Lia Arith Permutation.
From Verif Require Import Model_X Spec_X Proofs_X Spec_MonteCarlo Model_Guru Model_Neural Spec_Neural Proofs_Neural.
Import ListNotations.
Open Scope R_scope.

(** C87: the estimator built from a log-VT network is time * sum of rate * mean VT of the samples *)
Theorem C87_vt_mean : forall network parameters names idx f T n mix,
  shuffle_indices parameters names = Some idx ->
  (0 < n)%nat ->
  (forall c, In c mix -> length (nc_samples c) = n) ->
  (forall c x, In c mix -> In x (nc_samples c) ->
     length x = length parameters /\
     exists input, network_input parameters names x = Some input /\ network input = Fin (f x)) ->
  vt_poisson_mean network T n idx mix = Fin (expected_count T (fun _ => 1) (fun x => exp (f x)) mix).
Proof. intros. eapply vt_mean_spec; eauto. Qed.
Print Assumptions C87_vt_mean.

(** a detection-probability network: answers below 0 count as 0, and each rate is multiplied by the
    normaliser of the component's redshift distribution, if that is a power law *)
Theorem C87_pdet_mean_partial : forall network parameters names idx f norm T n mix,
  shuffle_indices parameters names = Some idx ->
  (0 < n)%nat ->
  (forall c, In c mix -> length (nc_samples c) = n) ->
  (forall c x, In c mix -> In x (nc_samples c) ->
     length x = length parameters /\
     exists input, network_input parameters names x = Some input /\ network input = Fin (f x)) ->
  (forall c, In c mix -> only_powerlaw (nc_dist c) /\ redshift_norm (nc_dist c) = Fin (norm (nc_dist c))) ->
  pdet_poisson_mean network T n idx mix
  = Fin (expected_count T (fun d => exp (norm d)) (fun x => Rmax 0 (f x)) mix).
Proof. intros. eapply pdet_mean_spec; eauto. Qed.
Print Assumptions C87_pdet_mean_partial.

Definition ex_mix (d : ndist) := [mknc 0 d [[Fin 1]]].
Open Scope string_scope.
(** the normaliser of a Madau-Dickinson redshift model, or of a redshift model outside a joint
    distribution, is left out *)
Theorem C87_madau_refuted : forall d, d = NJoint [MadauDickinsonZ (Fin (ln 2))] \/ d = NSingle (PowerlawZ (Fin (ln 2))) ->
  redshift_norm d = Fin (ln 2) /\
  expected_count 1 (fun _ => exp (ln 2)) (fun _ => Rmax 0 1) (ex_mix d) = 2 /\
  pdet_poisson_mean (fun _ => Fin 1) 1 1 [0%nat] (ex_mix d) = Fin 1.
Proof.
  intros d [-> | ->]; (split; [reflexivity|]).
  - split.
    + unfold expected_count, ex_mix, mean. cbn. rewrite Rmax_right, exp_0, exp_ln by lra. field.
    + assert (K : forall ms, only_powerlaw (NJoint ms) -> redshift_norm (NJoint ms) = Fin 0 ->
        pdet_poisson_mean (fun _ => Fin 1) 1 1 [0%nat] (ex_mix (NJoint ms)) = Fin 1).
      { intros ms O E. rewrite (pdet_mean_spec (fun _ => Fin 1) ["z"] ["z"] [0%nat] eq_refl (fun _ => 1) 1 1
           (ex_mix (NJoint ms)) ltac:(lia)) with (norm := fun _ => 0).
        - f_equal. unfold expected_count, ex_mix, mean. cbn. rewrite Rmax_right, exp_0 by lra. field.
        - intros c [<-|[]]. reflexivity.
        - intros c x [<-|[]] [<-|[]]. split; [reflexivity|]. eexists. split; reflexivity.
        - intros c [<-|[]]. split; auto. }
      etransitivity; [|apply (K [OtherMarginal])]; [reflexivity| |reflexivity].
      intros l [H|[]]; discriminate.
  - split.
    + unfold expected_count, ex_mix, mean. cbn. rewrite Rmax_right, exp_0, exp_ln by lra. field.
    + transitivity (pdet_poisson_mean (fun _ => Fin 1) 1 1 [0%nat] (ex_mix (NSingle OtherMarginal))); [reflexivity|].
      rewrite (pdet_mean_spec (fun _ => Fin 1) ["z"] ["z"] [0%nat] eq_refl (fun _ => 1) 1 1
           (ex_mix (NSingle OtherMarginal)) ltac:(lia)) with (norm := fun _ => 0).
      * f_equal. unfold expected_count, ex_mix, mean. cbn. rewrite Rmax_right, exp_0 by lra. field.
      * intros c [<-|[]]. reflexivity.
      * intros c x [<-|[]] [<-|[]]. split; [reflexivity|]. eexists. split; reflexivity.
      * intros c [<-|[]]. split; reflexivity.
Qed.
Print Assumptions C87_madau_refuted.

Example C87_nonvacuous :
  let network := fun l => match l with Fin a :: _ => Fin (- a) | _ => NaN end in
  let mix := [mknc 1 (NJoint [OtherMarginal; PowerlawZ (Fin 3)]) [[Fin 5; Fin 7]; [Fin 1; Fin (-2)]];
              mknc 0 (NSingle OtherMarginal) [[Fin 5; Fin 0]; [Fin 1; Fin 1]]] in
  let f := fun x => match x with [_; Fin z] => - z | _ => 0 end in
  shuffle_indices ["m"; "z"] ["z"] = Some [1%nat] /\
  (forall c, In c mix -> length (nc_samples c) = 2%nat) /\
  (forall c x, In c mix -> In x (nc_samples c) -> length x = 2%nat /\
     exists input, network_input ["m"; "z"] ["z"] x = Some input /\ network input = Fin (f x)) /\
  (forall c, In c mix -> only_powerlaw (nc_dist c)).
Proof.
  cbv zeta. split; [reflexivity|]. split; [intros c [<-|[<-|[]]]; reflexivity|]. split.
  - intros c x [<-|[<-|[]]] [<-|[<-|[]]]; (split; [reflexivity|]); eexists; split; reflexivity.
  - intros c [<-|[<-|[]]]; cbn; auto. intros l [H|[H|[]]]; discriminate.
Qed.

(** C88: the variance it reports is the variance of that Monte Carlo estimate, and is never negative *)
Theorem C88_vt_variance : forall network parameters names idx f T n mix,
  shuffle_indices parameters names = Some idx ->
  0 < T -> (0 < n)%nat ->
  (forall c, In c mix -> length (nc_samples c) = n) ->
  (forall c x, In c mix -> In x (nc_samples c) ->
     length x = length parameters /\
     exists input, network_input parameters names x = Some input /\ network input = Fin (f x)) ->
  exists v, vt_variance network T n idx mix = Fin v /\ 0 <= v /\
            v = count_variance T (fun _ => 1) (fun x => exp (f x)) mix.
Proof.
  intros. eexists. split; [eapply vt_variance_spec; eauto|]. split; auto. apply count_variance_nonneg.
Qed.
Print Assumptions C88_vt_variance.
Theorem C88_pdet_variance : forall network parameters names idx f norm T n mix,
  shuffle_indices parameters names = Some idx ->
  0 < T -> (0 < n)%nat ->
  (forall c, In c mix -> length (nc_samples c) = n) ->
  (forall c x, In c mix -> In x (nc_samples c) ->
     length x = length parameters /\
     exists input, network_input parameters names x = Some input /\ network input = Fin (f x)) ->
  (forall c, In c mix -> only_powerlaw (nc_dist c) /\ redshift_norm (nc_dist c) = Fin (norm (nc_dist c))) ->
  exists v, pdet_variance network T n idx mix = Fin v /\ 0 <= v /\
            v = count_variance T (fun d => exp (norm d)) (fun x => Rmax 0 (f x)) mix.
Proof.
  intros. eexists. split; [eapply pdet_variance_spec; eauto|]. split; auto. apply count_variance_nonneg.
Qed.
Print Assumptions C88_pdet_variance.
(** two equal samples: no spread, no variance; 1 and 0: (T R Z)^2 (1/4) / 2 *)
Example C88_nonvacuous : forall d,
  count_variance 1 (fun _ => 1) (fun x => match x with [Fin a] => a | _ => 0 end) [mknc 0 d [[Fin 1]; [Fin 0]]] = / 8 /\
  count_variance 1 (fun _ => 1) (fun x => match x with [Fin a] => a | _ => 0 end) [mknc 0 d [[Fin 1]; [Fin 1]]] = 0.
Proof.
  intros d. unfold count_variance, population_variance, mean. cbn. rewrite exp_0. split; field.
Qed.

(** C89: the network is fed by name: setup succeeds exactly when every expected name is a parameter,
    and then the input holds the value of each expected name, in the network's order *)
Theorem C89_setup : forall parameters names,
  (exists idx, shuffle_indices parameters names = Some idx) <->
  parameters <> [] /\ forall name, In name names -> In name parameters.
Proof. exact shuffle_total. Qed.
Print Assumptions C89_setup.
Theorem C89_by_name : forall network parameters names idx x,
  shuffle_indices parameters names = Some idx -> length x = length parameters ->
  exists input, network_input parameters names x = Some input /\ log_vt network idx x = network input /\
    (forall y, network input = Fin y -> y <= 0 -> log_pdet network idx x = NInf) /\
    (forall y, network input = Fin y -> 0 < y -> log_pdet network idx x = Fin (ln y)).
Proof.
  intros network ps names idx x H L. assert (N : ps <> []) by (destruct ps; [discriminate|congruence]).
  exists (columns idx x). split; [now rewrite (shuffle_named _ _ _ N L), H|]. split; [reflexivity|].
  unfold log_pdet. split; intros y -> Hy; cbn [xleb]; destruct (Rle_dec y 0); try lra; auto.
  now rewrite xln_pos.
Qed.
Print Assumptions C89_by_name.
(** reordering parameters together with the entries of the event changes nothing *)
Theorem C89_order_irrelevant : forall network parameters parameters' names idx idx' x x',
  NoDup parameters -> length x = length parameters -> length x' = length parameters' ->
  Permutation (combine parameters x) (combine parameters' x') ->
  shuffle_indices parameters names = Some idx -> shuffle_indices parameters' names = Some idx' ->
  log_vt network idx x = log_vt network idx' x' /\ log_pdet network idx x = log_pdet network idx' x'.
Proof.
  intros network ps ps' names idx idx' x x' N L L' P H H'.
  assert (E : columns idx x = columns idx' x').
  { assert (Np : ps <> []) by (destruct ps; [discriminate|congruence]).
    assert (Np' : ps' <> []) by (destruct ps'; [discriminate|congruence]).
    pose proof (shuffle_named ps names x Np L) as A. pose proof (shuffle_named ps' names x' Np' L') as B.
    rewrite H in A. rewrite H' in B. cbn in A, B.
    assert (C : network_input ps names x = network_input ps' names x').
    { unfold network_input. clear - N P L. induction names as [|k names IH]; cbn [map_opt]; auto. rewrite IH.
      unfold named. rewrite (dget_permutation (combine ps x) (combine ps' x') k); auto.
      replace (map fst (combine ps x)) with ps; auto. clear - L. revert x L.
      induction ps as [|p ps IHp]; intros [|a x] L; cbn in *; try discriminate; auto. f_equal. apply IHp. lia. }
    congruence. }
  unfold log_vt, log_pdet. now rewrite E.
Qed.
Print Assumptions C89_order_irrelevant.
Example C89_nonvacuous :
  shuffle_indices ["a"; "b"; "c"] ["c"; "a"] = Some [2%nat; 0%nat] /\
  shuffle_indices ["c"; "b"; "a"] ["c"; "a"] = Some [0%nat; 2%nat] /\
  network_input ["a"; "b"; "c"] ["c"; "a"] [Fin 1; Fin 2; Fin 3] = Some [Fin 3; Fin 1] /\
  Permutation (combine ["a"; "b"; "c"] [1; 2; 3]) (combine ["c"; "b"; "a"] [3; 2; 1]) /\
  shuffle_indices ["a"; "b"] ["c"] = None /\ shuffle_indices [] [] = None.
Proof.
  repeat split; try reflexivity. cbn. apply perm_trans with (l' := rev [("c",3);("b",2);("a",1)]).
  - reflexivity.
  - symmetry. apply Permutation_rev.
Qed.
