(** Properties C53, C54, C76: sensitivity injections. *)
From Coq Require Import String Ascii.
From Coq Require Import Reals List Bool Arith Lra Lia.
From Verif Require Import Model_X Spec_X Model_Joint Model_Constraints Model_Transform Proofs_Transform Model_Population Proofs_Population Model_Injections Spec_Injections Proofs_Injections.
Import ListNotations.
Open Scope R_scope.

(** ** C53 *)
Notation imp2 := (Forall2 (fun a b : bool => a = true -> b = true)).
Lemma imp2_refl l : imp2 l l.
Proof. induction l; constructor; auto. Qed.
Lemma imp2_orv a a' b b' : imp2 a a' -> imp2 b b' -> imp2 (orv a b) (orv a' b').
Proof.
  intros H; revert b b'; induction H; intros c c' Hc; [constructor|]. destruct Hc; [constructor|]. cbn [orv combine map].
  constructor; [|now apply IHForall2]. cbn [fst snd]. rewrite !orb_true_iff. tauto.
Qed.
Lemma imp2_andv a a' b b' : imp2 a a' -> imp2 b b' -> imp2 (andv a b) (andv a' b').
Proof.
  intros H; revert b b'; induction H; intros c c' Hc; [constructor|]. destruct Hc; [constructor|]. cbn [andv combine map].
  constructor; [|now apply IHForall2]. cbn [fst snd]. rewrite !andb_true_iff. tauto.
Qed.
Lemma imp2_above t1 t2 c : xleb t1 t2 = true -> imp2 (above t2 c) (above t1 c).
Proof. intros H. induction c; constructor; auto. now apply xltb_mono. Qed.
Lemma imp2_nth a b j : imp2 a b -> nth j a false = true -> nth j b false = true.
Proof. intros H; revert j; induction H; intros [|j]; cbn; auto. Qed.
Lemma found_by_ifar_mono data names n i1 i2 s1 s2 r1 r2 : xleb i1 i2 = true ->
  (forall t2, s2 = Some t2 -> exists t1, s1 = Some t1 /\ xleb t1 t2 = true) ->
  found_by_ifar data names n i1 s1 = Some r1 -> found_by_ifar data names n i2 s2 = Some r2 -> imp2 r2 r1.
Proof.
  intros Hi Hs. unfold found_by_ifar.
  assert (F : forall f2 f1, imp2 f2 f1 ->
    imp2 (fold_left (fun f kc => if is_ifar_key (fst kc) then orv f (above i2 (snd kc)) else f) data f2)
         (fold_left (fun f kc => if is_ifar_key (fst kc) then orv f (above i1 (snd kc)) else f) data f1)).
  { induction data as [|[k c] t IH]; intros f2 f1 H; cbn [fold_left]; auto. apply IH. cbn [fst snd].
    destruct (is_ifar_key k); auto. apply imp2_orv; auto. now apply imp2_above. }
  specialize (F _ _ (imp2_refl (repeat false n))).
  match type of F with Forall2 _ ?a ?b => set (f2 := a) in *; set (f1 := b) in * end.
  assert (G : forall f1 f2 r1 r2, imp2 f2 f1 ->
    match dget data "semianalytic_observed_phase_maximized_snr_net", s1 with
    | None, _ => Some f1 | Some c, Some s => Some (orv f1 (above s c)) | Some _, None => None end = Some r1 ->
    match dget data "semianalytic_observed_phase_maximized_snr_net", s2 with
    | None, _ => Some f2 | Some c, Some s => Some (orv f2 (above s c)) | Some _, None => None end = Some r2 -> imp2 r2 r1).
  { intros g1 g2 q1 q2 Hg. destruct (dget data "semianalytic_observed_phase_maximized_snr_net") as [c|]; [|intros [= <-] [= <-]; auto].
    destruct s1 as [t1|]; [|discriminate]. destruct s2 as [t2|]; [|discriminate]. intros [= <-] [= <-].
    destruct (Hs t2 eq_refl) as [t1' [[= <-] Hle]]. apply imp2_orv; auto. now apply imp2_above. }
  destruct names as [g|]; [|now apply G].
  destruct (dget data "optimal_snr_net") as [c|]; [|discriminate].
  destruct s1 as [t1|]; [|discriminate]. destruct s2 as [t2|]; [|discriminate]. apply G.
  destruct (Hs t2 eq_refl) as [t1' [[= <-] Hle]]. apply imp2_orv; auto. apply imp2_andv; [apply imp2_refl|now apply imp2_above].
Qed.
(** Loosening the thresholds never loses an injection, whatever columns the file has. *)
Theorem C53_monotone : forall data names n i1 i2 s1 s2 r1 r2,
  xleb (ifar_or_huge i1) (ifar_or_huge i2) = true ->
  (forall t2, s2 = Some t2 -> exists t1, s1 = Some t1 /\ xleb t1 t2 = true) ->
  get_found_injections data names n i1 s1 = Some r1 -> get_found_injections data names n i2 s2 = Some r2 ->
  forall j, marked r2 j -> marked r1 j.
Proof.
  intros data names n i1 i2 s1 s2 r1 r2 Hi Hs H1 H2 j. unfold marked. apply imp2_nth. revert H1 H2.
  unfold get_found_injections. destruct (existsb is_ifar_key (map fst data)).
  - now apply found_by_ifar_mono.
  - destruct (0 <? _)%nat; [now apply found_by_ifar_mono|].
    destruct s1 as [t1|]; [|discriminate]. destruct s2 as [t2|]; [|discriminate].
    destruct (Hs t2 eq_refl) as [t1' [[= <-] Hle]].
    destruct (dget data "observed_phase_maximized_snr_net") as [c|], (dget data "observed_snr_net") as [c'|]; intros [= <-] [= <-];
      try (apply imp2_orv; [apply imp2_refl|now apply imp2_above]); apply imp2_refl.
Qed.
Print Assumptions C53_monotone.
(** how an injection of the older runs, or one with a semianalytic signal-to-noise ratio, is found *)
Definition found_by_snr (data : list (string * list X)) (names : option (list bool)) (snr : option X) (j : nat) : Prop :=
  exists s, snr = Some s /\
  ((exists g c, names = Some g /\ marked g j /\ dget data "optimal_snr_net" = Some c /\ exceeds (nth j c NaN) s)
   \/ exists c, dget data "semianalytic_observed_phase_maximized_snr_net" = Some c /\ exceeds (nth j c NaN) s).
Lemma found_by_ifar_spec data names n ifar snr r :
  (forall k c, In (k, c) data -> length c = n) -> (forall g, names = Some g -> length g = n) ->
  found_by_ifar data names n ifar snr = Some r ->
  length r = n /\ forall j, marked r j <->
    (exists k c, In (k, c) data /\ is_ifar_key k = true /\ exceeds (nth j c NaN) ifar) \/ found_by_snr data names snr j.
Proof.
  intros Hc Hg. unfold found_by_ifar, marked, exceeds, found_by_snr.
  set (f := fold_left _ data _).
  assert (Lf : length f = n). { apply (ifar_fold ifar n 0 data (repeat false n)); auto. apply repeat_length. }
  assert (F : forall j, nth j f false = true <-> exists k c, In (k, c) data /\ is_ifar_key k = true /\ xltb ifar (nth j c NaN) = true).
  { intros j. destruct (ifar_fold ifar n j data (repeat false n) (repeat_length _ _) Hc) as [_ H]. unfold f. rewrite H, nth_repeat_false.
    split; [intros [A|A]; [discriminate|exact A]|now right]. }
  clearbody f.
  destruct names as [g|].
  - destruct (dget data "optimal_snr_net") as [c|] eqn:Eo; [|discriminate]. destruct snr as [s|]; [|discriminate].
    assert (Lc : length c = n) by (apply dget_In in Eo; eauto). specialize (Hg g eq_refl).
    assert (La : length g = length (above s c)) by (rewrite above_length; congruence).
    assert (Lo : length f = length (andv g (above s c))) by (rewrite andv_length; congruence).
    set (f' := orv f (andv g (above s c))).
    assert (Lf' : length f' = n) by (unfold f'; rewrite orv_length; auto).
    assert (F' : forall j, nth j f' false = true <-> nth j f false = true \/ nth j g false = true /\ xltb s (nth j c NaN) = true).
    { intros j. unfold f'. rewrite nth_orv, nth_andv, nth_above, orb_true_iff, andb_true_iff by auto. reflexivity. }
    clearbody f'.
    destruct (dget data "semianalytic_observed_phase_maximized_snr_net") as [c2|] eqn:E2; intros [= <-].
    + assert (L2 : length c2 = n) by (apply dget_In in E2; eauto).
      assert (L3 : length f' = length (above s c2)) by (rewrite above_length; congruence).
      split; [rewrite orv_length; auto|]. intros j. rewrite nth_orv, nth_above, orb_true_iff, F', F by auto. split.
      * intros [[A|[A B]]|A]; [now left|right; exists s; split; auto; left; exists g, c; auto|right; exists s; split; auto; right; now exists c2].
      * intros [A|[s' [[= <-] [[g' [c' [[= <-] [A [[= <-] B]]]]]|[c' [[= <-] A]]]]]]; tauto.
    + split; auto. intros j. rewrite F', F. split.
      * intros [A|[A B]]; [now left|right; exists s; split; auto; left; exists g, c; auto].
      * intros [A|[s' [[= <-] [[g' [c' [[= <-] [A [[= <-] B]]]]]|[c' [A _]]]]]]; try tauto. discriminate.
  - destruct (dget data "semianalytic_observed_phase_maximized_snr_net") as [c2|] eqn:E2.
    + destruct snr as [s|]; [|discriminate]. intros [= <-].
      assert (L2 : length c2 = n) by (apply dget_In in E2; eauto).
      assert (L3 : length f = length (above s c2)) by (rewrite above_length; congruence).
      split; [rewrite orv_length; auto|]. intros j. rewrite nth_orv, nth_above, orb_true_iff, F by auto. split.
      * intros [A|A]; [now left|right; exists s; split; auto; right; now exists c2].
      * intros [A|[s' [[= <-] [[g' [c' [E _]]]|[c' [[= <-] A]]]]]]; try tauto. discriminate.
    + intros [= <-]. split; auto. intros j. rewrite F. split; [now left|].
      intros [A|[s' [_ [[g' [c' [E _]]]|[c' [E _]]]]]]; auto; discriminate.
Qed.
(** With inverse false-alarm rates in the file: found exactly when some search's inverse rate exceeds the
    threshold (or by signal-to-noise ratio, where there is one). *)
Theorem C53_ifar : forall data names n ifar snr r,
  (forall k c, In (k, c) data -> length c = n) -> (forall g, names = Some g -> length g = n) ->
  (exists k, In k (map fst data) /\ substring_of "ifar" (lower k)) ->
  get_found_injections data names n ifar snr = Some r ->
  length r = n /\ forall j, marked r j <->
    (exists k c, In (k, c) data /\ substring_of "ifar" (lower k) /\ exceeds (nth j c NaN) (ifar_or_huge ifar))
    \/ found_by_snr data names snr j.
Proof.
  intros data names n ifar snr r Hc Hg [k0 [Hk0 Hs0]] H. unfold get_found_injections in H.
  assert (E : existsb is_ifar_key (map fst data) = true) by (apply existsb_exists; exists k0; split; auto; now apply contains_spec).
  rewrite E in H. destruct (found_by_ifar_spec _ _ _ _ _ _ Hc Hg H) as [L F]. split; auto. intros j. rewrite F.
  split; (intros [[k [c [A [B C]]]]|A]; [left|now right]); exists k, c; split; auto; split; auto; now apply contains_spec.
Qed.
Print Assumptions C53_ifar.
(** a column of false-alarm rates *)
Definition names_far (k : string) : Prop :=
  (exists t, lower k = ("far_" ++ t)%string) \/ (exists t, lower k = (t ++ "_far")%string) \/ substring_of "_far_" (lower k).
Lemma is_far_key_spec k : is_far_key k = true <-> names_far k.
Proof.
  unfold is_far_key, names_far. rewrite !orb_true_iff, prefix_spec, contains_spec, ends_with_spec. tauto.
Qed.
(** With false-alarm rates only: found exactly when some search's rate f has 1/f above the threshold; for
    a positive threshold t that is 0 <= f < 1/t. *)
Theorem C53_far : forall data names n ifar snr r,
  (forall k c, In (k, c) data -> length c = n) -> (forall g, names = Some g -> length g = n) -> NoDup (map fst data) ->
  (forall k, In k (map fst data) -> ~ substring_of "ifar" (lower k)) ->
  (exists k, In k (map fst data) /\ names_far k) ->
  (forall k, In k (map fst data) -> names_far k -> substring_of "far" k) ->
  get_found_injections data names n ifar snr = Some r ->
  length r = n /\ forall j, marked r j <->
    (exists k c, In (k, c) data /\ names_far k /\ exceeds (xdiv (Fin 1) (nth j c NaN)) (ifar_or_huge ifar))
    \/ found_by_snr data names snr j.
Proof.
  intros data names n ifar snr r Hc Hg Nd Hni [k0 [Hk0 Hf0]] Hlow H. unfold get_found_injections in H.
  assert (E : existsb is_ifar_key (map fst data) = false).
  { destruct (existsb is_ifar_key (map fst data)) eqn:E; auto. apply existsb_exists in E as [k [I E]].
    exfalso. apply (Hni k I). now apply contains_spec. }
  rewrite E in H.
  set (L := filter is_far_key (map fst data)) in *.
  assert (HL : forall k, In k L <-> In k (map fst data) /\ names_far k).
  { intros k. unfold L. now rewrite filter_In, is_far_key_spec. }
  destruct (0 <? length L)%nat eqn:E0.
  2:{ exfalso. apply Nat.ltb_ge in E0. assert (I : In k0 L) by (apply HL; auto). destruct L; [easy|cbn in E0; lia]. }
  assert (Hne : forall k k', In k L -> In k' L -> replace_far k <> k').
  { intros k k' A B Eq. apply HL in A as [A1 A2]. apply HL in B as [B1 _]. subst k'. apply (Hni _ B1).
    apply (lower_substring "ifar"). apply replace_has_ifar. auto. }
  unfold add_ifar in H. fold L in H.
  destruct (far_fold L data) as [N [G O]]; auto.
  { now apply In_filter_NoDup. }
  { intros k Hk. now apply HL in Hk. }
  set (d := fold_left _ L data) in *.
  assert (Isif : forall k, In k L -> is_ifar_key (replace_far k) = true).
  { intros k Hk. apply HL in Hk as [A B]. apply contains_spec. apply (lower_substring "ifar"). apply replace_has_ifar. auto. }
  assert (Hd : forall k c, In (k, c) d <-> (exists k1 c1, In (k1, c1) data /\ names_far k1 /\ k = replace_far k1 /\ c = map (fun x => xdiv (Fin 1) x) c1)
                              \/ (In (k, c) data /\ ~ exists k1, In k1 L /\ replace_far k1 = k)).
  { intros k c. split.
    - intros I. apply (In_dget d k c N) in I.
      destruct (in_dec string_dec k (map replace_far L)) as [J|J].
      + apply in_map_iff in J as [k1 [<- J]]. left. rewrite G in I by auto. destruct (dget data k1) as [c1|] eqn:D; [|discriminate].
        injection I as <-. exists k1, c1. split; [now apply dget_In|]. split; [now apply HL|auto].
      + right. assert (J' : ~ exists k1, In k1 L /\ replace_far k1 = k).
        { intros [k1 [A B]]. apply J. apply in_map_iff. now exists k1. }
        split; auto. rewrite O in I by auto. now apply dget_In.
    - intros [[k1 [c1 [I [F [-> ->]]]]]|[I J]].
      + apply dget_In. rewrite G. { rewrite (In_dget data k1 c1 Nd I). reflexivity. } apply HL. split; auto. apply in_map_iff. now exists (k1, c1).
      + apply dget_In. rewrite O by auto. now apply In_dget. }
  assert (Hcd : forall k c, In (k, c) d -> length c = n).
  { intros k c I. apply Hd in I as [[k1 [c1 [I [_ [_ ->]]]]]|[I _]]; [rewrite map_length; eauto|eauto]. }
  destruct (found_by_ifar_spec _ _ _ _ _ _ Hcd Hg H) as [Lr F]. split; auto. intros j. rewrite F.
  assert (Keep : forall k, contains "ifar" (lower k) = false -> dget d k = dget data k).
  { intros k Hk. apply O. intros [k1 [A <-]]. apply Isif in A. unfold is_ifar_key in A. congruence. }
  assert (S : found_by_snr d names snr j <-> found_by_snr data names snr j).
  { unfold found_by_snr. rewrite !Keep by reflexivity. reflexivity. }
  rewrite S. split; (intros [[k [c [A [B C]]]]|A]; [left|now right]).
  - apply Hd in A as [[k1 [c1 [I [Fk [-> ->]]]]]|[I _]].
    + exists k1, c1. split; auto. split; auto.
      replace NaN with (xdiv (Fin 1) NaN) in C by reflexivity. rewrite (map_nth (fun x => xdiv (Fin 1) x)) in C. exact C.
    + exfalso. apply (Hni k); [apply in_map_iff; now exists (k, c)|]. now apply contains_spec.
  - exists (replace_far k), (map (fun x => xdiv (Fin 1) x) c). split; [apply Hd; left; exists k, c; auto|]. split.
    + apply Isif. apply HL. split; auto. apply in_map_iff. now exists (k, c).
    + replace NaN with (xdiv (Fin 1) NaN) by reflexivity. rewrite (map_nth (fun x => xdiv (Fin 1) x)). exact C.
Qed.
Print Assumptions C53_far.
Theorem C53_rate_cut : forall f t : R, 0 < t -> (exceeds (xdiv (Fin 1) (Fin f)) (Fin t) <-> 0 <= f < / t).
Proof.
  intros f t Ht. unfold exceeds. cbn [xdiv]. pose proof (Rinv_0_lt_compat t Ht) as Hi.
  destruct (Req_EM_T f 0) as [->|N].
  - unfold xinf_times. destruct (Rlt_dec 0 1); [|lra]. cbn. split; auto. intros _. lra.
  - cbn [xltb]. unfold Rdiv. rewrite Rmult_1_l. destruct (Rlt_dec t (/ f)) as [L|L].
    + split; auto. intros _. assert (0 < f). { destruct (Rlt_dec 0 f); auto. exfalso. assert (f < 0) by lra. apply Rinv_lt_0_compat in H. lra. }
      split; [lra|]. rewrite <- (Rinv_involutive f) by auto. apply Rinv_lt_contravar; [|auto]. apply Rmult_lt_0_compat; auto. now apply Rinv_0_lt_compat.
    + split; [discriminate|]. intros [A B]. exfalso. apply L. assert (0 < f) by lra.
      rewrite <- (Rinv_involutive t) by lra. apply Rinv_lt_contravar; auto. now apply Rmult_lt_0_compat.
Qed.
Print Assumptions C53_rate_cut.
(** With neither, the observed signal-to-noise ratio decides; without any usable column nothing is found. *)
Theorem C53_snr : forall data names n ifar s r,
  (forall k c, In (k, c) data -> length c = n) ->
  (forall k, In k (map fst data) -> ~ substring_of "ifar" (lower k) /\ ~ names_far k) ->
  get_found_injections data names n ifar (Some s) = Some r ->
  forall j, marked r j <->
    exists c, exceeds (nth j c NaN) s /\
      (dget data "observed_phase_maximized_snr_net" = Some c
       \/ (dget data "observed_phase_maximized_snr_net" = None /\ dget data "observed_snr_net" = Some c)).
Proof.
  intros data names n ifar s r Hc Hno H j. unfold get_found_injections in H.
  assert (E : existsb is_ifar_key (map fst data) = false).
  { destruct (existsb is_ifar_key (map fst data)) eqn:E; auto. apply existsb_exists in E as [k [I E]].
    exfalso. apply (proj1 (Hno k I)). now apply contains_spec. }
  assert (E2 : filter is_far_key (map fst data) = []).
  { destruct (filter is_far_key (map fst data)) as [|k l] eqn:E2; auto. exfalso.
    assert (I : In k (filter is_far_key (map fst data))) by (rewrite E2; now left).
    apply filter_In in I as [I1 I2]. apply (proj2 (Hno k I1)). now apply is_far_key_spec. }
  rewrite E, E2 in H. cbn [length Nat.ltb Nat.leb] in H. unfold marked, exceeds.
  destruct (dget data "observed_phase_maximized_snr_net") as [c|] eqn:D1; [|destruct (dget data "observed_snr_net") as [c|] eqn:D2].
  - injection H as <-. assert (L : length c = n) by (apply dget_In in D1; eauto).
    rewrite nth_orv, nth_repeat_false, nth_above by (rewrite above_length, repeat_length; auto). cbn [orb]. split.
    + intros A. exists c. auto.
    + intros [c' [A [[= <-]|[B _]]]]; [auto|discriminate].
  - injection H as <-. assert (L : length c = n) by (apply dget_In in D2; eauto).
    rewrite nth_orv, nth_repeat_false, nth_above by (rewrite above_length, repeat_length; auto). cbn [orb]. split.
    + intros A. exists c. auto.
    + intros [c' [A [B|[_ [= <-]]]]]; [discriminate|auto].
  - injection H as <-. rewrite nth_repeat_false. split; [discriminate|]. intros [c' [A [B|[_ B]]]]; discriminate.
Qed.
Print Assumptions C53_snr.
(** The test for a false-alarm-rate column ignores case but its renaming does not: with an upper-case
    column nothing is found, even at a vanishing false-alarm rate and a huge signal-to-noise ratio. *)
Theorem C53_upper_case_refuted : forall snr,
  get_found_injections [("FAR_pipeline", [Fin 0]); ("observed_snr_net", [Fin 1000])]%string None 1 (Some (Fin 1)) (Some snr) = Some [false].
Proof. intros snr. reflexivity. Qed.
Print Assumptions C53_upper_case_refuted.
Example C53_nonvacuous : exists r,
  get_found_injections [("far_a", [Fin (1/2); Fin 3]); ("far_b", [Fin 5; Fin 7])]%string None 2 (Some (Fin 1)) None = Some r
  /\ marked r 0 /\ ~ marked r 1.
Proof.
  eexists. split; [reflexivity|]. destruct (C53_far [("far_a", [Fin (1/2); Fin 3]); ("far_b", [Fin 5; Fin 7])]%string None 2 (Some (Fin 1)) None _
    ltac:(intros k c [[= <- <-]|[[= <- <-]|[]]]; reflexivity) ltac:(discriminate)
    ltac:(cbn; constructor; [cbn; intros [H|[]]; discriminate|constructor; [easy|constructor]])
    ltac:(cbn; intros k [<-|[<-|[]]]; rewrite <- contains_spec; discriminate)
    ltac:(exists "far_a"%string; split; [now left|left; now exists "a"%string])
    ltac:(cbn; intros k [<-|[<-|[]]] _; rewrite <- contains_spec; reflexivity) eq_refl) as [_ F].
  split.
  - apply F. left. exists "far_a"%string, [Fin (1/2); Fin 3]. split; [now left|]. split; [left; now exists "a"%string|].
    cbn [nth ifar_or_huge]. apply C53_rate_cut; lra.
  - intros M. apply F in M as [[k [c [I [_ C]]]]|[s [E _]]]; [|discriminate].
    destruct I as [[= <- <-]|[[= <- <-]|[]]]; cbn [nth ifar_or_huge] in C; apply C53_rate_cut in C; lra.
Qed.

(** the coordinates handed to the model are the values under the requested names, in their order;
    a missing name is an error *)
Theorem C54_coordinates : forall d ps l,
  coordinates d ps = Some l <-> map Some l = map (dget d) ps.
Proof.
  intros d ps. induction ps as [|p ps IH]; intros l; cbn.
  - split; [intros [= <-]; reflexivity|]. destruct l; [reflexivity|discriminate].
  - destruct (dget d p) as [v|]; cbn.
    + unfold coordinates in IH. destruct (fold_right _ (Some []) ps) as [r|]; cbn.
      * split; [intros [= <-]; cbn; f_equal; now apply IH|]. destruct l as [|a l]; [discriminate|]. cbn.
        intros [= -> E]. apply IH in E. now injection E as ->.
      * split; [discriminate|]. destruct l as [|a l]; [discriminate|]. cbn. intros [= _ E]. now apply IH in E.
    + split; [discriminate|]. destruct l; discriminate.
Qed.
Print Assumptions C54_coordinates.


(** ** C54 *)
Lemma asks_wants ps c k : asks_for ps c -> In k mass_parameters -> (wants k ps = true <-> k = first_name c \/ k = second_name c).
Proof. intros H I. rewrite wants_spec. now apply H. Qed.
Ltac flag H k b :=
  let W := fresh "W" in
  assert (W : wants k _ = b) by (first [apply (asks_wants _ _ k H); [cbn; tauto|cbn; tauto]
      | apply not_true_iff_false; intros ?W'; apply (asks_wants _ _ k H) in W'; [|cbn; tauto]; cbn in W'; intuition discriminate]);
  rewrite ?W; clear W.
(** The prior of an injection is multiplied by the Jacobian of the map from the requested mass
    coordinates to the source-frame masses (and by the spin factor, and divided by the derivative of the
    distance), and the stored coordinates are those of the injection. *)
Theorem C54_density : forall chieff_prior chieff_chip_prior z_to_DL dDLdz c m1 m2 z a1 a2 c1 c2 d ps p e DL D,
  c <> DetectedMasses -> 0 < m1 -> 0 < m2 -> 0 < 1 + z ->
  injection m1 m2 z a1 a2 c1 c2 d -> dget d "prior" = Some (Fin p) -> dget d "mass_1" = None -> dget d "mass_ratio" = None ->
  asks_for ps c ->
  (wants "chi_eff" ps = true -> isotropic_value chieff_prior chieff_chip_prior m1 m2 a1 a2 c1 c2 ps e) ->
  (wants "chi_1" ps = true -> a1 * c1 <> 0) -> (wants "chi_2" ps = true -> a2 * c2 <> 0) ->
  z_to_DL (Fin z) = Fin DL -> dDLdz (Fin z) = Fin D -> D <> 0 ->
  exists d' u v J, apply_injection_prior chieff_prior chieff_chip_prior z_to_DL dDLdz d ps = Some d'
    /\ dget d' (first_name c) = Some (Fin u) /\ dget d' (second_name c) = Some (Fin v)
    /\ source_mass_1 c z u v = m1 /\ source_mass_2 c z u v = m2
    /\ jacobian (source_mass_1 c z) (source_mass_2 c z) u v J
    /\ (wants "luminosity_distance" ps = true -> dget d' "luminosity_distance" = Some (Fin DL))
    /\ dget d' "prior" = Some (Fin (p * J * spin_factor a1 a2 c1 c2 ps e / (if wants "luminosity_distance" ps then D else 1))).
Proof.
  intros cp ccp zDL dDL c m1 m2 z a1 a2 c1 c2 d ps p e DL D Hc Hm1 Hm2 Hz Hb Hp Hn1 Hnq Ha He H1 H2 HDL HdDL HD.
  assert (Pq : 0 < m2 / m1) by now apply Rdiv_lt_0_compat.
  pose proof (primary_over_chirp_pos (m2 / m1) Pq) as PQ.
  (* the last step, common to all *)
  assert (Last : forall d4 p4, injection m1 m2 z a1 a2 c1 c2 d4 -> dget d4 "prior" = Some (Fin p4) -> exists d5,
     guard "luminosity_distance" ps (step_luminosity_distance zDL dDL) (Some d4) = Some d5
     /\ (wants "luminosity_distance" ps = true -> dget d5 "luminosity_distance" = Some (Fin DL))
     /\ dget d5 "prior" = Some (Fin (p4 / (if wants "luminosity_distance" ps then D else 1)))
     /\ forall k, k <> "luminosity_distance"%string -> k <> "prior"%string -> dget d5 k = dget d4 k).
  { intros d4 p4 Hb4 Hp4. unfold guard. destruct (wants "luminosity_distance" ps).
    - destruct (step_DL_spec cp ccp zDL dDL m1 m2 z a1 a2 c1 c2 d4 p4 DL D Hb4 HD HDL HdDL Hp4) as [d5 [E [_ [G [P O]]]]].
      exists d5. split; auto.
    - exists d4. split; auto. split; [discriminate|]. split; auto. rewrite Hp4. do 2 f_equal. field. }
  assert (Spin : forall d1 p1, injection m1 m2 z a1 a2 c1 c2 d1 -> dget d1 "prior" = Some (Fin p1) ->
    (dget d1 "mass_ratio" = None \/ dget d1 "mass_ratio" = Some (Fin (m2 / m1))) ->
    exists d', guard "chi_2" ps (step_chi "chi_2" "a_2" "cos_tilt_2") (guard "chi_1" ps (step_chi "chi_1" "a_1" "cos_tilt_1")
      (guard "chi_eff" ps (step_effective_spin cp ccp ps) (Some d1))) = Some d'
    /\ injection m1 m2 z a1 a2 c1 c2 d' /\ dget d' "prior" = Some (Fin (p1 * spin_factor a1 a2 c1 c2 ps e))
    /\ (dget d1 "mass_ratio" <> None -> dget d' "mass_ratio" = dget d1 "mass_ratio")
    /\ forall k, ~ In k ["chi_eff"; "chi_p"; "chi_1"; "chi_2"; "mass_ratio"; "prior"]%string -> dget d' k = dget d1 k).
  { intros d1 p1 B P Q. now apply spin_stage. }
  unfold apply_injection_prior.
  assert (Jok : forall u v, 0 < u -> 0 < v -> jacobian (source_mass_1 c z) (source_mass_2 c z) u v (mass_jacobian c z u v)).
  { intros u v Hu Hv. now apply mass_jacobian_correct. }
  set (S := spin_factor a1 a2 c1 c2 ps e) in *.
  destruct c; [| |easy| | |].
  - (* source masses *)
    unfold guard at 2 3 4 8 9. flag Ha "chirp_mass_detector"%string false. flag Ha "mass_2"%string false. flag Ha "mass_1"%string false.
    flag Ha "chirp_mass"%string false. flag Ha "mass_ratio"%string false.
    destruct (Spin d p Hb Hp (or_introl Hnq)) as [d1 [-> [B1 [P1 [_ O1]]]]].
    destruct (Last d1 _ B1 P1) as [d5 [-> [G5 [P5 O5]]]].
    exists d5, m1, m2, (mass_jacobian SourceMasses z m1 m2). split; auto.
    cbn [first_name second_name source_mass_1 source_mass_2]. pose proof B1 as [A1 [A2 _]].
    split; [rewrite O5 by discriminate; exact A1|]. split; [rewrite O5 by discriminate; exact A2|]. do 2 (split; [reflexivity|]).
    split; [apply Jok; auto|]. split; auto. rewrite P5. cbn [mass_jacobian]. do 2 f_equal. unfold Rdiv. ring.
  - (* primary source mass and mass ratio *)
    unfold guard at 2 3 4 8 9. flag Ha "chirp_mass_detector"%string false. flag Ha "mass_2"%string false. flag Ha "mass_1"%string false.
    flag Ha "chirp_mass"%string false. flag Ha "mass_ratio"%string true. cbn [bind].
    destruct (step_mass_ratio_spec cp ccp zDL dDL m1 m2 z a1 a2 c1 c2 Hm1 d p Hb Hp) as [d0 [-> [B0 [Q0 [P0 O0]]]]].
    destruct (Spin d0 _ B0 P0 (or_intror Q0)) as [d1 [-> [B1 [P1 [Q1 O1]]]]].
    destruct (Last d1 _ B1 P1) as [d5 [-> [G5 [P5 O5]]]].
    exists d5, m1, (m2 / m1), (mass_jacobian SourceRatio z m1 (m2 / m1)). split; auto.
    cbn [first_name second_name source_mass_1 source_mass_2]. pose proof B1 as [A1 _].
    split; [rewrite O5 by discriminate; exact A1|].
    split; [rewrite O5, Q1 by (try discriminate; congruence); exact Q0|]. split; [reflexivity|]. split; [field; lra|].
    split; [apply Jok; auto|]. split; auto. 
  - (* primary detected mass and mass ratio *)
    unfold guard at 2 3 4 8 9. flag Ha "chirp_mass_detector"%string false. flag Ha "mass_2"%string false. flag Ha "mass_1"%string true.
    flag Ha "chirp_mass"%string false. flag Ha "mass_ratio"%string true. cbn [bind].
    destruct (step_mass_ratio_spec cp ccp zDL dDL m1 m2 z a1 a2 c1 c2 Hm1 d p Hb Hp) as [d0 [-> [B0 [Q0 [P0 O0]]]]].
    destruct (Spin d0 _ B0 P0 (or_intror Q0)) as [d1 [-> [B1 [P1 [Q1 O1]]]]].
    destruct (step_m1d_spec cp ccp zDL dDL m1 m2 z a1 a2 c1 c2 Hz d1 _ B1 P1) as [d2 [E2 [B2 [G2 [P2 O2]]]]]. cbn [bind]. rewrite E2.
    destruct (Last d2 _ B2 P2) as [d5 [-> [G5 [P5 O5]]]].
    exists d5, (m1 * (1 + z)), (m2 / m1), (mass_jacobian DetectedRatio z (m1 * (1 + z)) (m2 / m1)). split; auto.
    cbn [first_name second_name source_mass_1 source_mass_2].
    split; [rewrite O5 by discriminate; exact G2|].
    split; [rewrite O5, O2, Q1 by (try discriminate; congruence); exact Q0|]. split; [field; lra|]. split; [field; lra|].
    split; [apply Jok; auto; nra|]. split; auto. rewrite P5. cbn [mass_jacobian]. do 2 f_equal. destruct (wants "luminosity_distance" ps); field; repeat split; auto; lra.
  - (* chirp mass and mass ratio *)
    unfold guard at 2 3 4 8 9. flag Ha "chirp_mass_detector"%string false. flag Ha "mass_2"%string false. flag Ha "mass_1"%string false.
    flag Ha "chirp_mass"%string true. flag Ha "mass_ratio"%string true. cbn [bind].
    destruct (step_mass_ratio_spec cp ccp zDL dDL m1 m2 z a1 a2 c1 c2 Hm1 d p Hb Hp) as [d0 [-> [B0 [Q0 [P0 O0]]]]]. cbn [bind].
    destruct (step_chirp_spec cp ccp zDL dDL m1 m2 z a1 a2 c1 c2 Hm1 Hm2 d0 _ B0 Q0 P0) as [d2 [-> [B2 [G2 [P2 O2]]]]].
    assert (Q2 : dget d2 "mass_ratio" = Some (Fin (m2 / m1))) by (rewrite O2 by discriminate; exact Q0).
    destruct (Spin d2 _ B2 P2 (or_intror Q2)) as [d1 [-> [B1 [P1 [Q1 O1]]]]].
    destruct (Last d1 _ B1 P1) as [d5 [-> [G5 [P5 O5]]]].
    exists d5, (m1 / primary_over_chirp (m2 / m1)), (m2 / m1), (mass_jacobian ChirpRatio z (m1 / primary_over_chirp (m2 / m1)) (m2 / m1)). split; auto.
    cbn [first_name second_name source_mass_1 source_mass_2].
    split; [rewrite O5, O1 by (try discriminate; cbn; intuition discriminate); exact G2|].
    split; [rewrite O5, Q1 by (try discriminate; congruence); exact Q2|]. split; [field; lra|]. split; [field; lra|].
    split; [apply Jok; auto; now apply Rdiv_lt_0_compat|]. split; auto. rewrite P5. cbn [mass_jacobian]. do 2 f_equal. destruct (wants "luminosity_distance" ps); field; repeat split; auto; lra.
  - (* detector-frame chirp mass and mass ratio *)
    unfold guard at 2 3 4 8 9. flag Ha "chirp_mass_detector"%string true. flag Ha "mass_2"%string false. flag Ha "mass_1"%string false.
    flag Ha "chirp_mass"%string false. flag Ha "mass_ratio"%string true. cbn [bind].
    destruct (step_mass_ratio_spec cp ccp zDL dDL m1 m2 z a1 a2 c1 c2 Hm1 d p Hb Hp) as [d0 [-> [B0 [Q0 [P0 O0]]]]].
    destruct (Spin d0 _ B0 P0 (or_intror Q0)) as [d1 [-> [B1 [P1 [Q1 O1]]]]]. cbn [bind].
    assert (Q1' : dget d1 "mass_ratio" = Some (Fin (m2 / m1))) by (rewrite Q1 by congruence; exact Q0).
    assert (N1 : dget d1 "mass_1" = None) by (rewrite O1, O0 by (try discriminate; cbn; intuition discriminate); exact Hn1).
    destruct (step_chirpd_spec cp ccp zDL dDL m1 m2 z a1 a2 c1 c2 Hm1 Hm2 Hz d1 _ B1 Q1' N1 P1) as [d2 [-> [B2 [G2 [P2 O2]]]]].
    destruct (Last d2 _ B2 P2) as [d5 [-> [G5 [P5 O5]]]].
    exists d5, (m1 * (1 + z) / primary_over_chirp (m2 / m1)), (m2 / m1), (mass_jacobian DetectedChirpRatio z (m1 * (1 + z) / primary_over_chirp (m2 / m1)) (m2 / m1)). split; auto.
    cbn [first_name second_name source_mass_1 source_mass_2].
    split; [rewrite O5 by discriminate; exact G2|].
    split; [rewrite O5, O2 by discriminate; exact Q1'|]. split; [field; lra|]. split; [field; lra|].
    split; [apply Jok; auto; apply Rdiv_lt_0_compat; auto; nra|]. split; auto. rewrite P5. cbn [mass_jacobian]. do 2 f_equal. destruct (wants "luminosity_distance" ps); field; repeat split; auto; lra.
Qed.
Print Assumptions C54_density.
From Coquelicot Require Import Coquelicot.
From Verif Require Import Spec_Density Spec_Transform.
(** The factor for an aligned spin: with magnitude uniform in [0, 1] and cosine uniform in [-1, 1] (joint
    density 1/2), the spin chi = magnitude * cosine has density the integral of 1/2 * 1/magnitude over the
    magnitudes above |chi|; that is the aligned-spin prior, and the factor is its ratio to 1/2. *)
Theorem C54_aligned_spin : forall chi, 0 < Rabs chi <= 1 ->
  exists v, aligned_spin_prior (Fin chi) = Fin v /\ is_RInt (fun a => 1/2 * / a) (Rabs chi) 1 v /\ v / (1/2) = - ln (Rabs chi).
Proof.
  intros chi H. exists (- ln (Rabs chi) / 2). assert (N : chi <> 0) by (intros ->; rewrite Rabs_R0 in H; lra).
  split; [now apply aligned_fin|]. split; [|field].
  set (m := Rabs chi) in *.
  replace (- ln m / 2) with (minus (1/2 * ln 1) (1/2 * ln m)) by (unfold minus, plus, opp; cbn; rewrite ln_1; field).
  apply (is_RInt_derive (fun a => 1/2 * ln a) (fun a => 1/2 * / a)).
  - intros x Hx. rewrite Rmin_left in Hx by lra. auto_derive; [lra|]. field. lra.
  - intros x Hx. rewrite Rmin_left in Hx by lra. apply (ex_derive_continuous (fun a => 1/2 * / a)). auto_derive. lra.
Qed.
Print Assumptions C54_aligned_spin.
(** Detector-frame component masses cannot be asked for on their own: the call fails, *)
Theorem C54_detected_masses_refuted : forall chieff_prior chieff_chip_prior z_to_DL dDLdz m1 m2 z a1 a2 c1 c2 d ps p,
  0 < 1 + z -> injection m1 m2 z a1 a2 c1 c2 d -> dget d "prior" = Some (Fin p) -> dget d "mass_ratio" = None ->
  asks_for ps DetectedMasses -> wants "chi_eff" ps = false -> wants "chi_1" ps = false -> wants "chi_2" ps = false ->
  apply_injection_prior chieff_prior chieff_chip_prior z_to_DL dDLdz d ps = None.
Proof.
  intros cp ccp zDL dDL m1 m2 z a1 a2 c1 c2 d ps p Hz Hb Hp Hq Ha W1 W2 W3. unfold apply_injection_prior.
  unfold guard at 2 3 4 5 6 7 8 9. flag Ha "chirp_mass_detector"%string false. flag Ha "mass_2"%string true. flag Ha "mass_1"%string true.
  flag Ha "chirp_mass"%string false. flag Ha "mass_ratio"%string false. rewrite W1, W2, W3. cbn [bind].
  destruct (step_m1d_spec cp ccp zDL dDL m1 m2 z a1 a2 c1 c2 Hz d p Hb Hp) as [d2 [-> [B2 [G2 [P2 O2]]]]]. cbn [bind].
  unfold step_mass_2_detected. rewrite G2. cbn [bind]. rewrite (O2 "mass_ratio"%string), Hq by discriminate. cbn [bind]. unfold guard. destruct (wants "luminosity_distance" ps); reflexivity.
Qed.
Print Assumptions C54_detected_masses_refuted.
(** and when an effective spin is asked for as well the prior is divided by the detected primary mass
    instead of by 1 + z: the Jacobian is 1 / (1 + z)^2. *)
Theorem C54_detected_masses_with_spin_refuted : forall chieff_prior chieff_chip_prior z_to_DL dDLdz m1 m2 z a1 a2 c1 c2 d ps p e,
  0 < m1 -> 0 < m2 -> 0 < 1 + z -> injection m1 m2 z a1 a2 c1 c2 d -> dget d "prior" = Some (Fin p) -> dget d "mass_ratio" = None ->
  asks_for ps DetectedMasses -> wants "chi_eff" ps = true -> wants "chi_1" ps = false -> wants "chi_2" ps = false ->
  isotropic_value chieff_prior chieff_chip_prior m1 m2 a1 a2 c1 c2 ps e -> wants "luminosity_distance" ps = false ->
  exists d', apply_injection_prior chieff_prior chieff_chip_prior z_to_DL dDLdz d ps = Some d'
    /\ dget d' "mass_1" = Some (Fin (m1 * (1 + z))) /\ dget d' "mass_2" = Some (Fin (m2 * (1 + z)))
    /\ dget d' "prior" = Some (Fin (p * (4 * e) / (1 + z) / (m1 * (1 + z))))
    /\ jacobian (source_mass_1 DetectedMasses z) (source_mass_2 DetectedMasses z) (m1 * (1 + z)) (m2 * (1 + z)) (/ (1 + z) * / (1 + z)).
Proof.
  intros cp ccp zDL dDL m1 m2 z a1 a2 c1 c2 d ps p e Hm1 Hm2 Hz Hb Hp Hq Ha W1 W2 W3 He W4. unfold apply_injection_prior.
  unfold guard at 1 2 3 4 8 9. flag Ha "chirp_mass_detector"%string false. flag Ha "mass_2"%string true. flag Ha "mass_1"%string true.
  flag Ha "chirp_mass"%string false. flag Ha "mass_ratio"%string false. rewrite W4.
  destruct (step_effective_spin_spec cp ccp m1 m2 z a1 a2 c1 c2 Hm1 ps d p e Hb Hp (or_introl Hq) He) as [d1 [E1 [_ [_ [Q1 [P1 O1]]]]]].
  unfold guard. rewrite W1, W2, W3. cbn [bind]. rewrite E1. cbn [bind].
  assert (B1 : injection m1 m2 z a1 a2 c1 c2 d1).
  { destruct Hb as [A [B [C [D [E [F G]]]]]]. unfold injection. rewrite !O1 by discriminate. repeat split; assumption. }
  destruct (step_m1d_spec cp ccp zDL dDL m1 m2 z a1 a2 c1 c2 Hz d1 _ B1 P1) as [d2 [-> [B2 [G2 [P2 O2]]]]]. cbn [bind].
  assert (Q2 : dget d2 "mass_ratio" = Some (Fin (m2 / m1))) by (rewrite O2 by discriminate; exact Q1).
  destruct (step_m2d_spec cp ccp zDL dDL m1 m2 z a1 a2 c1 c2 d2 _ _ (m1 * (1 + z)) B2 ltac:(nra) G2 Q2 P2) as [d3 [-> [B3 [G3 [P3 O3]]]]].
  exists d3. split; auto. split; [rewrite O3 by discriminate; exact G2|]. split; [rewrite G3; do 2 f_equal; field; lra|]. split; [exact P3|].
  apply (mass_jacobian_correct DetectedMasses); nra.
Qed.
Print Assumptions C54_detected_masses_with_spin_refuted.
(** The source-frame chirp mass cannot be asked for without the mass ratio. *)
Theorem C54_chirp_mass_refuted : forall chieff_prior chieff_chip_prior z_to_DL dDLdz d ps,
  dget d "mass_ratio" = None -> In "chirp_mass"%string ps -> ~ In "mass_ratio"%string ps ->
  apply_injection_prior chieff_prior chieff_chip_prior z_to_DL dDLdz d ps = None.
Proof.
  intros cp ccp zDL dDL d ps Hq H1 H2. apply wants_spec in H1. apply wants_false in H2. unfold apply_injection_prior.
  unfold guard at 8 9. rewrite H1, H2. cbn [bind]. unfold step_chirp_mass. rewrite Hq. cbn [bind].
  assert (G : forall k f, guard k ps f None = None) by (intros k f; unfold guard; now destruct (wants k ps)).
  now rewrite !G.
Qed.
Print Assumptions C54_chirp_mass_refuted.
(** what loading gives, renamed, is an injection with none of the derived parameters *)
Example C54_nonvacuous : exists d', apply_injection_prior (fun _ _ => NaN) (fun _ _ _ => NaN) (fun _ => Fin 5) (fun _ => Fin 3)
  (rename [("mass_1", Fin 30); ("mass_2", Fin 15); ("redshift", Fin 1); ("a_1", Fin (1/2)); ("cos_tilt_1", Fin 1); ("a_2", Fin (1/2)); ("cos_tilt_2", Fin 1); ("prior", Fin 7)])%string
  ["mass_1"; "mass_ratio"; "luminosity_distance"]%string = Some d'
  /\ dget d' "mass_1" = Some (Fin 60) /\ dget d' "mass_ratio" = Some (Fin (1/2)) /\ dget d' "prior" = Some (Fin 35).
Proof.
  destruct (C54_density (fun _ _ => NaN) (fun _ _ _ => NaN) (fun _ => Fin 5) (fun _ => Fin 3) DetectedRatio 30 15 1 (1/2) (1/2) 1 1
    (rename [("mass_1", Fin 30); ("mass_2", Fin 15); ("redshift", Fin 1); ("a_1", Fin (1/2)); ("cos_tilt_1", Fin 1); ("a_2", Fin (1/2)); ("cos_tilt_2", Fin 1); ("prior", Fin 7)])%string
    ["mass_1"; "mass_ratio"; "luminosity_distance"]%string 7 0 5 3)
    as [d' [u [v [J [E [U [V [S1 [S2 [HJ [_ P]]]]]]]]]]]; try reflexivity; try lra; try discriminate.
  - repeat split; reflexivity.
  - intros k Hk. cbn in Hk. cbn. intuition (subst; try discriminate; auto).
  - exists d'. split; [exact E|]. cbn [first_name second_name] in U, V. cbn [source_mass_1 source_mass_2] in S1, S2.
    assert (u = 60) by lra. subst u. assert (Hv : v = 1/2) by lra. subst v. split; [exact U|]. split; [exact V|].
    rewrite P. do 2 f_equal. destruct HJ as [fu [fv [gu [gv [D1 [D2 [D3 [D4 ->]]]]]]]].
    destruct (mass_jacobian_correct DetectedRatio 1 60 (1/2)) as [[fu' [fv' [gu' [gv' [D1' [D2' [D3' [D4' EJ]]]]]]]] _]; try lra.
    rewrite (uniqueness_limite _ _ _ _ D1 D1'), (uniqueness_limite _ _ _ _ D2 D2'), (uniqueness_limite _ _ _ _ D3 D3'), (uniqueness_limite _ _ _ _ D4 D4').
    rewrite <- EJ. unfold spin_factor. cbn. field.
Qed.

(** ** C76 *)
(** From Cartesian spin components to magnitude and cosine of the tilt *)
Theorem C76_spin : forall x y z, let a := sqrt (x * x + y * y + z * z) in
  spin_magnitude (Fin x) (Fin y) (Fin z) = Fin a
  /\ (x <> 0 \/ y <> 0 \/ z <> 0 -> exists c, cos_tilt (Fin z) (Fin a) = Fin c /\ -1 <= c <= 1 /\ a * c = z /\ 0 < a
       /\ exists phi, x = a * sqrt (1 - c * c) * cos phi /\ y = a * sqrt (1 - c * c) * sin phi).
Proof.
  intros x y z a. split.
  - unfold spin_magnitude, square. cbn [xmul xadd xsqrt]. destruct (Rlt_dec _ 0) as [L|L]; [exfalso; nra|]. reflexivity.
  - intros H. assert (P : 0 < x * x + y * y + z * z).
    { assert (forall t, t <> 0 -> 0 < t * t) by (intros t Ht; destruct (Rlt_dec 0 t); nra). destruct H as [H|[H|H]]; apply H0 in H; nra. }
    assert (Pa : 0 < a) by (apply sqrt_lt_R0; exact P). assert (Sa : a * a = x * x + y * y + z * z) by (apply sqrt_sqrt; lra).
    exists (z / a). unfold cos_tilt. rewrite xdiv_Fin by lra. split; [reflexivity|].
    assert (Ha : -a <= z <= a) by (split; nra).
    assert (C : -1 <= z / a <= 1).
    { split; apply (Rmult_le_reg_r a); auto; unfold Rdiv; rewrite Rmult_assoc, Rinv_l by lra; lra. }
    split; auto. split; [field; lra|]. split; auto.
    set (r := a * sqrt (1 - z / a * (z / a))).
    assert (R2 : r * r = x * x + y * y).
    { unfold r. replace (a * sqrt (1 - z / a * (z / a)) * (a * sqrt (1 - z / a * (z / a)))) with (a * a * (sqrt (1 - z / a * (z / a)) * sqrt (1 - z / a * (z / a)))) by ring.
      rewrite sqrt_sqrt by nra. replace (a * a * (1 - z / a * (z / a))) with (a * a - z * z) by (field; lra). lra. }
    assert (R0 : 0 <= r) by (apply Rmult_le_pos; [lra|apply sqrt_pos]).
    destruct (Req_dec r 0) as [E|N].
    + exists 0. rewrite E in *. split; nra.
    + assert (Pr : 0 < r) by lra.
      destruct (Rle_dec 0 y) as [Hy|Hy].
      * assert (B : -1 <= x / r <= 1) by (split; apply (Rmult_le_reg_r r); auto; unfold Rdiv; rewrite Rmult_assoc, Rinv_l by lra; nra).
        exists (acos (x / r)). rewrite cos_acos, sin_acos by auto. split; [field; auto|].
        replace (1 - (x / r)²) with ((y / r) * (y / r)) by (unfold Rsqr; field_simplify_eq; [nra|auto]).
        rewrite sqrt_square; [field; auto|]. apply Rmult_le_pos; auto. left. now apply Rinv_0_lt_compat.
      * assert (B : -1 <= x / r <= 1) by (split; apply (Rmult_le_reg_r r); auto; unfold Rdiv; rewrite Rmult_assoc, Rinv_l by lra; nra).
        exists (- acos (x / r)). rewrite cos_neg, sin_neg, cos_acos, sin_acos by auto. split; [field; auto|].
        replace (1 - (x / r)²) with ((- y / r) * (- y / r)) by (unfold Rsqr; field_simplify_eq; [nra|auto]).
        rewrite sqrt_square; [field; auto|]. apply Rmult_le_pos; [lra|]. left. now apply Rinv_0_lt_compat.
Qed.
Print Assumptions C76_spin.
(** the Jacobian from (magnitude, cosine, azimuth) to Cartesian components is the square of the magnitude *)
Theorem C76_jacobian : forall a c phi, 0 < a -> -1 < c < 1 ->
  exists xa xc xp ya yc yp za zc zp,
    derivable_pt_lim (fun a => a * sqrt (1 - c * c) * cos phi) a xa /\ derivable_pt_lim (fun c => a * sqrt (1 - c * c) * cos phi) c xc /\ derivable_pt_lim (fun phi => a * sqrt (1 - c * c) * cos phi) phi xp
    /\ derivable_pt_lim (fun a => a * sqrt (1 - c * c) * sin phi) a ya /\ derivable_pt_lim (fun c => a * sqrt (1 - c * c) * sin phi) c yc /\ derivable_pt_lim (fun phi => a * sqrt (1 - c * c) * sin phi) phi yp
    /\ derivable_pt_lim (fun a => a * c) a za /\ derivable_pt_lim (fun c => a * c) c zc /\ derivable_pt_lim (fun _ => a * c) phi zp
    /\ Rabs (det3 xa xc xp ya yc yp za zc zp) = a * a.
Proof.
  intros a c phi Ha Hc. assert (P : 0 < 1 - c * c) by nra. assert (S : sqrt (1 - c * c) * sqrt (1 - c * c) = 1 - c * c) by (apply sqrt_sqrt; lra).
  assert (Ps : 0 < sqrt (1 - c * c)) by (now apply sqrt_lt_R0).
  set (s := sqrt (1 - c * c)) in *.
  exists (s * cos phi), (- a * c / s * cos phi), (- a * s * sin phi), (s * sin phi), (- a * c / s * sin phi), (a * s * cos phi), c, a, 0.
  split; [apply is_derive_Reals; auto_derive; auto; fold s; ring|].
  split; [apply is_derive_Reals; auto_derive; [lra|]; replace (1 + - (c * c)) with (1 - c * c) by ring; fold s; field; lra|].
  split; [apply is_derive_Reals; auto_derive; auto; fold s; ring|].
  split; [apply is_derive_Reals; auto_derive; auto; fold s; ring|].
  split; [apply is_derive_Reals; auto_derive; [lra|]; replace (1 + - (c * c)) with (1 - c * c) by ring; fold s; field; lra|].
  split; [apply is_derive_Reals; auto_derive; auto; fold s; ring|].
  split; [apply is_derive_Reals; auto_derive; auto; ring|].
  split; [apply is_derive_Reals; auto_derive; auto; ring|].
  split; [apply is_derive_Reals; auto_derive; auto; ring|].
  pose proof (sin2_cos2 phi) as T. unfold Rsqr in T.
  replace (det3 _ _ _ _ _ _ _ _ _) with (- (a * a) * ((sin phi * sin phi + cos phi * cos phi) * (s * s + c * c))).
  - rewrite T, S. rewrite Rmult_1_l. replace (- (a * a) * (1 - c * c + c * c)) with (- (a * a)) by ring. rewrite Rabs_Ropp, Rabs_right; nra.
  - unfold det3. field. lra.
Qed.
Print Assumptions C76_jacobian.
(** The draw density per Cartesian components becomes the density per magnitude and cosine: it is
    multiplied by 2 pi a^2 for each spin, whichever way the file stores it; densities stored per polar angle
    are divided by the sine, the derivative of the arccosine. *)
Theorem C76_draw_density : forall p a1 a2 c1 c2, 0 < p -> 0 < a1 -> 0 < a2 ->
  draw_prior (SamplingPdf (Fin p)) (Fin a1) (Fin a2) (Fin c1) (Fin c2) = Fin (p * (2 * PI * (a1 * a1)) * (2 * PI * (a2 * a2)))
  /\ draw_prior (LnPdraw (Fin (ln p))) (Fin a1) (Fin a2) (Fin c1) (Fin c2) = draw_prior (SamplingPdf (Fin p)) (Fin a1) (Fin a2) (Fin c1) (Fin c2).
Proof.
  intros p a1 a2 c1 c2 Hp H1 H2. pose proof PI_RGT_0 as HP.
  assert (A : draw_prior (SamplingPdf (Fin p)) (Fin a1) (Fin a2) (Fin c1) (Fin c2) = Fin (p * (2 * PI * (a1 * a1)) * (2 * PI * (a2 * a2)))).
  { cbn. f_equal. ring. }
  split; auto. rewrite A. unfold draw_prior, spin_jacobian. cbn [xmul xln].
  assert (P : 0 < 2 * PI * a1 * a2) by (apply Rmult_lt_0_compat; [apply Rmult_lt_0_compat; lra|auto]).
  destruct (Rlt_dec 0 (2 * PI * a1 * a2)); [|easy]. cbn [xmul xadd xexp]. f_equal.
  replace (2 * ln (2 * PI * a1 * a2)) with (ln (2 * PI * a1 * a2) + ln (2 * PI * a1 * a2)) by ring.
  rewrite !exp_plus, !exp_ln by auto. ring.
Qed.
Print Assumptions C76_draw_density.
Theorem C76_polar_angle : forall parts c1 c2, -1 < c1 < 1 -> -1 < c2 < 1 ->
  exists d1 d2, derivable_pt_lim acos c1 d1 /\ derivable_pt_lim acos c2 d2
    /\ draw_prior (LnParts (map Fin parts)) (Fin 1) (Fin 1) (Fin c1) (Fin c2) = Fin (exp (fold_right Rplus 0 parts) * Rabs d1 * Rabs d2).
Proof.
  intros parts c1 c2 H1 H2.
  assert (S : forall c, -1 < c < 1 -> 0 < sqrt (1 - c * c)) by (intros c Hc; apply sqrt_lt_R0; nra).
  exists (-1 / sqrt (1 - c1 * c1)), (-1 / sqrt (1 - c2 * c2)).
  split; [exact (derive_pt_eq_1 acos c1 _ (derivable_pt_acos c1 H1) (derive_pt_acos c1 H1))|].
  split; [exact (derive_pt_eq_1 acos c2 _ (derivable_pt_acos c2 H2) (derive_pt_acos c2 H2))|].
  assert (X1 : xsum (map Fin parts) = Fin (fold_right Rplus 0 parts)).
  { unfold xsum. induction parts as [|x t IH]; cbn [map fold_right]; auto. rewrite IH. reflexivity. }
  unfold draw_prior. rewrite X1. cbn [xexp].
  assert (X2 : forall c, -1 < c < 1 -> xsin_arccos (Fin c) = Fin (sqrt (1 - c * c))).
  { intros c Hc. unfold xsin_arccos, xsub. cbn [xmul xopp xadd xsqrt]. destruct (Rlt_dec (1 + - (c * c)) 0); [exfalso; nra|]. reflexivity. }
  pose proof (S c1 H1). pose proof (S c2 H2).
  rewrite !X2 by auto. rewrite !xdiv_Fin by lra. f_equal.
  unfold Rdiv at 3 4. rewrite !Rabs_mult. rewrite (Rabs_left (-1)) by lra. rewrite !Rabs_inv, !(Rabs_right (sqrt _)) by lra. field. lra.
Qed.
Print Assumptions C76_polar_angle.
(** dividing the draw density by the weight of an injection multiplies its term of the sum by the
    weight; without weights nothing changes *)
Theorem C76_weights : forall m p w, 0 < p -> 0 < w ->
  xexp (xsub (Fin m) (xln (weighted_prior (Some (Fin w)) (Fin p)))) = Fin (w * (exp m / p))
  /\ weighted_prior None (Fin p) = Fin p.
Proof.
  intros m p w Hp Hw. unfold weighted_prior. rewrite !xdiv_Fin by lra. split.
  - rewrite xln_fin by (now apply Rdiv_lt_0_compat). unfold xsub. cbn [xopp xadd xexp]. f_equal.
    rewrite ln_div by lra. replace (m + - (ln p - ln w)) with (m + ln w + - ln p) by ring.
    rewrite !exp_plus, exp_Ropp, !exp_ln by lra. field. lra.
  - f_equal. field.
Qed.
Print Assumptions C76_weights.

(** Files with aligned spins only (no x components): unless every injection is found, the mask has
    another length than the zeros that stand in for them, and loading fails; otherwise the components are zero. *)
Theorem C76_aligned_file_refuted : forall data k mask, dget data k = None ->
  (count mask <> length mask -> spin_component data k mask = None)
  /\ (count mask = length mask -> spin_component data k mask = Some (repeat (Fin 0) (length mask))).
Proof.
  intros data k mask H. unfold spin_component, masked. rewrite H, repeat_length. split.
  - intros N. destruct (Nat.eqb_spec (length mask) (count mask)); [congruence|reflexivity].
  - intros E. rewrite E, Nat.eqb_refl. f_equal. unfold count in E.
    revert E. induction mask as [|b t IH]; auto. cbn [filter length combine repeat map]. destruct b; cbn [length fst snd filter map combine repeat].
    + intros [= E]. f_equal. now apply IH.
    + intros E. exfalso. assert (L : (length (filter (fun b => b) t) <= length t)%nat) by (clear; induction t as [|b t IH]; cbn; [lia|destruct b; cbn; lia]). cbn [length] in E. lia.
Qed.
Print Assumptions C76_aligned_file_refuted.
Lemma filter_nth_S b m l : filter (fun i => nth i (b :: m) false) (map S l) = map S (filter (fun i => nth i m false) l).
Proof.
  induction l as [|i t IH]; [reflexivity|]. cbn [map filter]. rewrite IH. change (nth (S i) (b :: m) false) with (nth i m false).
  destruct (nth i m false); reflexivity.
Qed.
(** A present component is read at the found injections, in order. *)
Theorem C76_masked : forall data k mask c, dget data k = Some c -> length c = length mask ->
  exists l, spin_component data k mask = Some l /\ length l = count mask
    /\ l = map (fun i => nth i c NaN) (filter (fun i => nth i mask false) (seq 0 (length mask))).
Proof.
  intros data k mask c H L. unfold spin_component, masked. rewrite H, <- L, Nat.eqb_refl. eexists. split; [reflexivity|]. split.
  - unfold count. rewrite map_length. revert mask L. clear. induction c as [|x c IH]; intros [|b m] L; try discriminate; auto.
    cbn [combine filter fst]. destruct b; cbn [length]; rewrite (IH m) by (cbn in L; lia); reflexivity.
  - revert mask L. clear. induction c as [|x c IH]; intros [|b m] L; try discriminate; auto.
    cbn [length seq combine]. rewrite <- seq_shift. cbn [filter fst]. rewrite filter_nth_S.
    change (nth 0 (b :: m) false) with b.
    destruct b; cbn [map snd]; rewrite map_map; rewrite (IH m) by (cbn in L; lia); reflexivity.
Qed.
Print Assumptions C76_masked.
(** a spin without magnitude has no tilt *)
Theorem C76_zero_spin_refuted : cos_tilt (Fin 0) (spin_magnitude (Fin 0) (Fin 0) (Fin 0)) = NaN.
Proof.
  destruct (C76_spin 0 0 0) as [-> _]. replace (0 * 0 + 0 * 0 + 0 * 0) with 0 by ring. rewrite sqrt_0.
  unfold cos_tilt, xdiv. destruct (Req_EM_T 0 0) as [_|N]; [|now elim N]. unfold xinf_times. destruct (Rlt_dec 0 0) as [L|_]; [exfalso; lra|reflexivity].
Qed.
Print Assumptions C76_zero_spin_refuted.
Example C76_nonvacuous : spin_magnitude (Fin 3) (Fin 0) (Fin 4) = Fin 5 /\ cos_tilt (Fin 4) (Fin 5) = Fin (4/5)
  /\ spin_component (cons ("spin1x"%string, (Fin 1 :: Fin 2 :: Fin 3 :: nil)%list) nil) "spin1x" (true :: false :: true :: nil)%list = Some (Fin 1 :: Fin 3 :: nil)%list.
Proof.
  split; [|split].
  - destruct (C76_spin 3 0 4) as [-> _]. f_equal. replace (3 * 3 + 0 * 0 + 4 * 4) with (5 * 5) by ring. apply sqrt_square. lra.
  - unfold cos_tilt. now rewrite xdiv_Fin by lra.
  - reflexivity.
Qed.
