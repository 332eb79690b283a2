(** C133: distributions return arrays of the shapes they declare. *)
From Coq Require Import List Arith Bool Lia.
From Verif Require Import Model_Shapes Spec_Shapes Proofs_Shapes.
Import ListNotations.

Lemma common2 s b c : bro (Some s) (Some b) = Some c <-> common_shape [s; b] c.
Proof. rewrite <- common_iff. unfold broadcast_shapes. cbn [map elementwise fold_right]. rewrite bro_unit_r. reflexivity. Qed.

(** opens a constructor: [b] is the batch, [E] says that it is the common shape, the parameters are promoted *)
Ltac opened E :=
  match goal with |- context [broadcast_shapes ?l] => destruct (broadcast_shapes l) as [b|] eqn:E; [rewrite (promote_map _ _ E); cbn [map]|] end.
Ltac opened_in H E :=
  match type of H with context [broadcast_shapes ?l] => destruct (broadcast_shapes l) as [b|] eqn:E; [rewrite (promote_map _ _ E) in H; cbn [map] in H|discriminate] end.
(** an expression in [v] and the parameters is the broadcast of [v] and the batch *)
Ltac absorbs E v b :=
  transitivity (bro (Some v) (bro (Some (repeat 1 (length b))) (Some b)));
  [rewrite <- E; unfold broadcast_shapes; cbn [map];
   let o := fresh "o" in set (o := Some (repeat 1 (length b))); clearbody o; shapes
  |rewrite ones_fit; reflexivity].

Opaque bro.
Lemma doubly_density alpha low high d v : doubly_truncated alpha low high = Some d -> log_prob d v = bro (Some v) (Some (batch d)).
Proof. unfold doubly_truncated. intros H. opened_in H E. injection H as <-. cbn [log_prob batch]. absorbs E v b. Qed.
Lemma primary_density alpha beta mmin mmax d v : powerlaw_primary_mass_ratio alpha beta mmin mmax = Some d ->
  log_prob d (v ++ [2]) = bro (Some v) (Some (batch d)).
Proof.
  unfold powerlaw_primary_mass_ratio. intros H. opened_in H E. injection H as <-. cbn [log_prob batch]. rewrite unstack_app. absorbs E v b.
Qed.
Lemma wysocki_density alpha mmin mmax d v : wysocki alpha mmin mmax = Some d -> log_prob d (v ++ [2]) = bro (Some v) (Some (batch d)).
Proof. unfold wysocki. intros H. opened_in H E. injection H as <-. cbn [log_prob batch]. rewrite init_app. absorbs E v b. Qed.
Lemma broken_density a1 a2 mbreak mmax mmin d v : broken_powerlaw a1 a2 mbreak mmax mmin = Some d -> log_prob d v = bro (Some v) (Some (batch d)).
Proof. unfold broken_powerlaw. intros H. opened_in H E. injection H as <-. cbn [log_prob batch]. absorbs E v b. Qed.
Lemma skew_density loc scale epsilon d v : skew_normal loc scale epsilon = Some d -> log_prob d v = bro (Some v) (Some (batch d)).
Proof. unfold skew_normal. intros H. opened_in H E. injection H as <-. cbn [log_prob batch]. absorbs E v b. Qed.
Lemma powerlaw_z_density kappa r v : powerlaw_redshift [] kappa = Some r -> log_prob (z_dist r) v = bro (Some v) (Some (batch (z_dist r))).
Proof.
  unfold powerlaw_redshift. intros H. opened_in H E. injection H as <-. cbn [log_prob batch z_dist]. unfold redshift_log_prob. absorbs E v b.
Qed.
Lemma madau_z_density kappa gamma z_peak r v : madau_redshift [] kappa gamma z_peak = Some r ->
  log_prob (z_dist r) v = bro (Some v) (Some (batch (z_dist r))).
Proof.
  unfold madau_redshift. intros H. opened_in H E. injection H as <-. cbn [log_prob batch z_dist]. unfold redshift_log_prob. absorbs E v b.
Qed.

Lemma density_of d e : event d = e -> (forall v, log_prob d (v ++ e) = bro (Some v) (Some (batch d))) -> density_as_declared d.
Proof. intros E H s c. rewrite E, H. apply common2. Qed.
Lemma density_at d s : density_as_declared d -> log_prob d (s ++ event d) = bro (Some s) (Some (batch d)).
Proof.
  intros H. destruct (log_prob d (s ++ event d)) as [c|] eqn:E.
  - symmetry. apply common2, H. exact E.
  - destruct (bro (Some s) (Some (batch d))) as [c|] eqn:F; [|reflexivity]. apply common2, H in F. congruence.
Qed.

(** A distribution is built exactly when its parameters have a common shape, which is its batch shape. *)
Ltac built :=
  match goal with
  | |- (exists d, match broadcast_shapes ?l with Some _ => _ | None => _ end = Some d /\ _) <-> _ =>
    rewrite <- common_iff; let E := fresh "E" in let H := fresh "H" in
    destruct (broadcast_shapes l) eqn:E;
    [rewrite (promote_map _ _ E); cbn [map]; split;
     [intros (? & H & <- & _); injection H as <-; reflexivity
     |intros H; injection H as <-; eexists; split; [reflexivity|]; split; reflexivity]
    |split; [intros (? & H & _); discriminate H|intros H; discriminate H]]
  end.
Theorem C133_batch c :
  (forall alpha low high,
     (exists d, doubly_truncated alpha low high = Some d /\ batch d = c /\ event d = []) <-> common_shape [alpha; low; high] c) /\
  (forall alpha beta mmin mmax,
     (exists d, powerlaw_primary_mass_ratio alpha beta mmin mmax = Some d /\ batch d = c /\ event d = [2]) <->
     common_shape [alpha; beta; mmin; mmax] c) /\
  (forall alpha mmin mmax,
     (exists d, wysocki alpha mmin mmax = Some d /\ batch d = c /\ event d = [2]) <-> common_shape [alpha; mmin; mmax] c) /\
  (forall a1 a2 mbreak mmax mmin,
     (exists d, broken_powerlaw a1 a2 mbreak mmax mmin = Some d /\ batch d = c /\ event d = []) <->
     common_shape [a1; a2; mbreak; mmax; mmin] c) /\
  (forall loc scale epsilon,
     (exists d, skew_normal loc scale epsilon = Some d /\ batch d = c /\ event d = []) <-> common_shape [loc; scale; epsilon] c) /\
  (forall z_max kappa,
     (exists r, powerlaw_redshift z_max kappa = Some r /\ batch (z_dist r) = c /\ event (z_dist r) = []) <-> common_shape [z_max; kappa] c) /\
  (forall z_max kappa gamma z_peak,
     (exists r, madau_redshift z_max kappa gamma z_peak = Some r /\ batch (z_dist r) = c /\ event (z_dist r) = []) <->
     common_shape [z_max; kappa; gamma; z_peak] c).
Proof.
  split; [intros; unfold doubly_truncated; built|]. split; [intros; unfold powerlaw_primary_mass_ratio; built|].
  split; [intros; unfold wysocki; built|]. split; [intros; unfold broken_powerlaw; built|].
  split; [intros; unfold skew_normal; built|]. split; [intros; unfold powerlaw_redshift; built|].
  intros; unfold madau_redshift; built.
Qed.

Ltac its_event H := revert H; let E := fresh "E" in intros H; opened_in H E; injection H as <-; reflexivity.
(** log_prob has the common shape of the values and the batch. *)
Theorem C133_density :
  (forall alpha low high d, doubly_truncated alpha low high = Some d -> density_as_declared d) /\
  (forall alpha beta mmin mmax d, powerlaw_primary_mass_ratio alpha beta mmin mmax = Some d -> density_as_declared d) /\
  (forall alpha mmin mmax d, wysocki alpha mmin mmax = Some d -> density_as_declared d) /\
  (forall a1 a2 mbreak mmax mmin d, broken_powerlaw a1 a2 mbreak mmax mmin = Some d -> density_as_declared d) /\
  (forall loc scale epsilon d, skew_normal loc scale epsilon = Some d -> density_as_declared d) /\
  (forall kappa r, powerlaw_redshift [] kappa = Some r -> density_as_declared (z_dist r)) /\
  (forall kappa gamma z_peak r, madau_redshift [] kappa gamma z_peak = Some r -> density_as_declared (z_dist r)).
Proof.
  split; [|split; [|split; [|split; [|split; [|split]]]]].
  - intros alpha low high d H. apply (density_of d []); [|intros v; rewrite app_nil_r; eapply doubly_density; exact H].
    unfold doubly_truncated in H. its_event H.
  - intros alpha beta mmin mmax d H. apply (density_of d [2]); [|intros v; eapply primary_density; exact H].
    unfold powerlaw_primary_mass_ratio in H. its_event H.
  - intros alpha mmin mmax d H. apply (density_of d [2]); [|intros v; eapply wysocki_density; exact H].
    unfold wysocki in H. its_event H.
  - intros a1 a2 mbreak mmax mmin d H. apply (density_of d []); [|intros v; rewrite app_nil_r; eapply broken_density; exact H].
    unfold broken_powerlaw in H. its_event H.
  - intros loc scale epsilon d H. apply (density_of d []); [|intros v; rewrite app_nil_r; eapply skew_density; exact H].
    unfold skew_normal in H. its_event H.
  - intros kappa r H. apply (density_of _ []); [|intros v; rewrite app_nil_r; eapply powerlaw_z_density; exact H].
    unfold powerlaw_redshift in H. its_event H.
  - intros kappa gamma z_peak r H. apply (density_of _ []); [|intros v; rewrite app_nil_r; eapply madau_z_density; exact H].
    unfold madau_redshift in H. its_event H.
Qed.

(** A value outside the batch axis of z_max gets a density of the wrong shape. *)
Theorem C133_z_max_refuted n : 2 <= n ->
  exists r, powerlaw_redshift [n] [] = Some r /\ batch (z_dist r) = [n] /\ event (z_dist r) = [] /\
            log_prob (z_dist r) [] = Some [1] /\ ~ density_as_declared (z_dist r).
Proof.
  intros Hn. eexists. split; [reflexivity|]. split; [reflexivity|]. split; [reflexivity|]. split; [reflexivity|].
  intros H. destruct (proj1 (H [] [1]) eq_refl) as (_ & F & _). destruct (F [n] 0 (or_intror (or_introl eq_refl))) as [G|G]; cbn in G; lia.
Qed.

Lemma stack_length l r : stack_last l = Some r -> exists s, In (Some s) l /\ r = s ++ [length l].
Proof.
  destruct l as [|[s|] t]; cbn [stack_last]; try discriminate. destruct (forallb _ t); [|discriminate].
  intros H. injection H as <-. exists s. split; [left; reflexivity|reflexivity].
Qed.
Lemma stack_same s n : stack_last (repeat (Some s) (S n)) = Some (s ++ [S n]).
Proof.
  cbn [repeat stack_last]. replace (forallb _ _) with true; [cbn [length]; rewrite repeat_length; reflexivity|].
  symmetry. apply forallb_forall. intros x Hx. apply repeat_spec in Hx. subst x. apply shape_eqb_eq. reflexivity.
Qed.
Lemma ew_length l c : elementwise l = Some c -> forall n, (forall s, In (Some s) l -> length s <= n) -> length c <= n.
Proof.
  revert c. induction l as [|x l IH]; intros c; cbn [elementwise fold_right]; [intros H n _; injection H as <-; cbn; lia|].
  fold (elementwise l). intros H n Hn. destruct x as [x|]; [|discriminate H]. destruct (elementwise l) as [r|]; [|discriminate H].
  pose proof (bro_length _ _ _ H) as L. specialize (IH _ eq_refl n (fun s Hs => Hn s (or_intror Hs))).
  specialize (Hn x (or_introl eq_refl)). lia.
Qed.
Lemma ew_longer l c s : elementwise l = Some c -> In (Some s) l -> length s <= length c.
Proof.
  revert c. induction l as [|x l IH]; [intros c _ []|]. intros c. cbn [elementwise fold_right]. fold (elementwise l). intros H [->|Hs].
  - destruct (elementwise l) as [r|]; [|discriminate H]. apply bro_length in H. lia.
  - destruct (elementwise l) as [r|]; [|destruct x; discriminate H]. specialize (IH _ eq_refl Hs). destruct x as [x|]; [|discriminate H].
    apply bro_length in H. lia.
Qed.
Lemma padded (s c : shp) : length s <= length c -> exists p, bro (Some s) (Some (repeat 1 (length c))) = Some p /\ length p = length c.
Proof.
  intros H. exists (repeat 1 (length c - length s) ++ s). split; [symmetry; apply pad_bro; exact H|].
  rewrite app_length, repeat_length. lia.
Qed.
(** promoted parameters are replaced by names *)
Ltac padded E :=
  repeat match goal with
  | |- context [bro (Some ?s) (Some (repeat 1 (length ?c)))] =>
    let p := fresh "p" in let Hp := fresh "Hp" in let Lp := fresh "Lp" in
    destruct (padded s c) as (p & Hp & Lp); [apply (bs_fits _ _ _ E); cbn [In]; tauto|]; rewrite !Hp
  end.

Lemma scalars_nil (l : list shp) : scalars l -> forall s, In s l -> s = []. Proof. auto. Qed.
Ltac all_scalars H :=
  repeat match goal with
  | s : shp |- _ => match type of H with context [s] => let E := fresh in assert (E : s = []) by (apply H; cbn [In]; tauto); subst s end
  end.
Ltac opened_scalars H S :=
  pose proof (proj2 (bs_scalars _) S) as Es; rewrite Es, (promote_map _ _ Es) in H; cbn [map length repeat] in H; rewrite ?bro_unit_r in H;
  all_scalars S; injection H as <-.
Lemma redshift_draws psi ss : (forall n, psi (Some [n]) = Some [n]) -> redshift_sample psi (Some []) [] ss = Some ss.
Proof.
  intros H. unfold redshift_sample. generalize sample_points as n. intros n. unfold linspace. cbn [elementwise fold_right].
  rewrite !bro_unit. cbn [option_map]. unfold redshift_log_prob. rewrite H. cbn [elementwise fold_right]. rewrite !bro_unit_r, !bro_idem.
  unfold trapezoid. cbn [shorten rev app elementwise fold_right]. rewrite bro_unit_r, bro_idem. cbn [init rev app].
  rewrite !bro_unit_r, bro_idem. cbn [interp]. rewrite Nat.eqb_refl, app_nil_r. reflexivity.
Qed.
(** Draws of one set of parameters have the shape asked for; those of a truncated power law also for a batch. *)
Theorem C133_draws :
  (forall alpha low high d, doubly_truncated alpha low high = Some d -> draws_as_declared d) /\
  (forall alpha beta mmin mmax d, powerlaw_primary_mass_ratio alpha beta mmin mmax = Some d ->
     scalars [alpha; beta; mmin; mmax] -> draws_as_declared d) /\
  (forall alpha mmin mmax d, wysocki alpha mmin mmax = Some d -> scalars [alpha; mmin; mmax] -> draws_as_declared d) /\
  (forall z_max kappa r, powerlaw_redshift z_max kappa = Some r -> scalars [z_max; kappa] -> draws_as_declared (z_dist r)) /\
  (forall z_max kappa gamma z_peak r, madau_redshift z_max kappa gamma z_peak = Some r ->
     scalars [z_max; kappa; gamma; z_peak] -> draws_as_declared (z_dist r)).
Proof.
  split; [|split; [|split; [|split]]].
  - intros alpha low high d H ss _. unfold doubly_truncated in H. opened_in H E. injection H as <-. cbn [sample batch event].
    rewrite app_nil_r. transitivity (bro (Some (ss ++ b)) (Some b)); [absorbs E (ss ++ b) b|apply suffix_fits].
  - intros alpha beta mmin mmax d H S ss _. unfold powerlaw_primary_mass_ratio in H. opened_scalars H S. cbn [sample batch event app].
    cbn [elementwise fold_right]. repeat rewrite ?bro_unit, ?bro_unit_r, ?bro_idem. apply (stack_same ss 1).
  - intros alpha mmin mmax d H S ss _. unfold wysocki in H. opened_scalars H S. cbn [sample batch event app].
    unfold uniform_between. cbn [elementwise fold_right]. repeat rewrite ?bro_unit, ?bro_unit_r, ?bro_idem.
    replace (shape_eqb ss ss) with true by (symmetry; apply shape_eqb_eq; reflexivity). apply (stack_same ss 1).
  - intros z_max kappa r H S ss _. unfold powerlaw_redshift in H. opened_scalars H S. cbn [sample batch event z_dist app]. rewrite app_nil_r.
    apply redshift_draws. intros n. cbn [elementwise fold_right]. rewrite ?bro_unit, ?bro_unit_r. reflexivity.
  - intros z_max kappa gamma z_peak r H S ss _. unfold madau_redshift in H. opened_scalars H S. cbn [sample batch event z_dist app]. rewrite app_nil_r.
    apply redshift_draws. intros n. cbn [elementwise fold_right]. repeat rewrite ?bro_unit, ?bro_unit_r, ?bro_idem. reflexivity.
Qed.

Lemma interp_none x xp n m q : interp x xp (Some (n :: m :: q)) = None.
Proof. unfold interp. destruct xp as [[|? [|? ?]]|]; reflexivity. Qed.
Lemma some_inj A (x y : A) : Some x = Some y -> x = y. Proof. congruence. Qed.
(** For a batch of parameters: the mass models ignore the batch, the redshift models cannot draw at all. *)
Theorem C133_draws_refuted :
  (forall alpha beta mmin mmax d ss, powerlaw_primary_mass_ratio alpha beta mmin mmax = Some d -> batch d <> [] -> ss <> [] ->
     sample d ss <> Some (ss ++ batch d ++ event d)) /\
  (forall n d, powerlaw_primary_mass_ratio [] [n] [] [] = Some d -> 2 <= n -> sample d [] = None) /\
  (forall alpha mmin mmax d ss, wysocki alpha mmin mmax = Some d -> batch d <> [] -> sample d ss <> Some (ss ++ batch d ++ event d)) /\
  (forall z_max kappa r ss, powerlaw_redshift z_max kappa = Some r -> batch (z_dist r) <> [] -> sample (z_dist r) ss = None) /\
  (forall z_max kappa gamma z_peak r ss, madau_redshift z_max kappa gamma z_peak = Some r -> batch (z_dist r) <> [] ->
     sample (z_dist r) ss = None).
Proof.
  split; [|split; [|split; [|split]]].
  - intros alpha beta mmin mmax d ss H B S. unfold powerlaw_primary_mass_ratio in H. opened_in H E. apply some_inj in H; subst.
    cbn [sample batch event] in *. padded E. intros C. apply stack_length in C. destruct C as (s & Hs & C). cbn [length] in C.
    assert (L : length s <= Nat.max (length ss) (length b)).
    { assert (M : forall t, In (Some t) [elementwise [Some ss; Some p; Some p0; Some p1]] -> length t <= Nat.max (length ss) (length b)).
      { intros t [Ht|[]]. eapply ew_length; [exact Ht|]. intros u [U|[U|[U|[U|[]]]]]; injection U as <-; lia. }
      destruct Hs as [Hs|[Hs|[]]]; [apply M; left; exact Hs|]. eapply ew_length; [exact Hs|].
      intros u [U|[U|[U|[U|[]]]]]; try (injection U as <-; cbn; lia). eapply ew_length; [exact U|].
      intros w [W|[W|[]]]; [injection W as <-; lia|apply M; left; exact W]. }
    apply (f_equal (@length nat)) in C. rewrite !app_length in C. cbn [length] in C. destruct ss; [congruence|]. destruct b; [congruence|].
    cbn [length] in *. lia.
  - intros n d H Hn. apply some_inj in H; subst. cbn [sample]. Transparent bro. cbn. destruct n as [|[|n]]; try lia. reflexivity.
  - intros alpha mmin mmax d ss H B. unfold wysocki in H. opened_in H E. apply some_inj in H; subst. cbn [sample batch event] in *. padded E.
    intros C. destruct (elementwise [Some ss; Some p; Some p0; Some p1]) as [m1|] eqn:M; [|discriminate C].
    cbn [stack_last forallb] in C. unfold uniform_between in C. destruct (elementwise [Some ss; Some p0; Some m1]) as [u|] eqn:U; [|discriminate C].
    destruct (shape_eqb u ss) eqn:W; [|discriminate C]. apply shape_eqb_eq in W. subst u.
    pose proof (ew_longer _ _ p0 U (or_intror (or_introl eq_refl))) as L1.
    pose proof (ew_longer _ _ m1 U (or_intror (or_intror (or_introl eq_refl)))) as L2.
    destruct (shape_eqb ss m1 && true); [|discriminate C]. injection C as C. apply (f_equal (@length nat)) in C. rewrite !app_length in C. cbn [length] in C.
    destruct b; [congruence|]. cbn [length] in *. lia.
  - intros z_max kappa r ss H B. unfold powerlaw_redshift in H. opened_in H E. apply some_inj in H; subst. cbn [sample batch z_dist] in *. padded E.
    unfold redshift_sample, linspace. cbn [elementwise fold_right]. rewrite bro_unit, bro_unit_r. cbn [option_map].
    match goal with |- context [sample_points :: ?q] => assert (Lq : length q = length b) by assumption; destruct q as [|x q]; [destruct b; [congruence|discriminate Lq]|] end. apply interp_none.
  - intros z_max kappa gamma z_peak r ss H B. unfold madau_redshift in H. opened_in H E. apply some_inj in H; subst. cbn [sample batch z_dist] in *. padded E.
    unfold redshift_sample, linspace. cbn [elementwise fold_right]. rewrite !bro_unit, !bro_unit_r. cbn [option_map].
    match goal with |- context [sample_points :: ?q] => assert (Lq : length q = length b) by assumption; destruct q as [|x q]; [destruct b; [congruence|discriminate Lq]|] end. apply interp_none.
Qed.

(** The normalisation of a redshift model is a number for one set of parameters. *)
Lemma redshift_norm psi : (forall n, psi (Some [n]) = Some [n]) -> redshift_log_norm psi (Some []) = Some [].
Proof.
  intros H. unfold redshift_log_norm. generalize norm_points as n. intros n. unfold linspace. cbn [elementwise fold_right].
  rewrite !bro_unit. cbn [option_map]. unfold redshift_log_prob. rewrite H. cbn [elementwise fold_right]. rewrite !bro_unit_r, !bro_idem.
  unfold trapezoid. cbn [shorten rev app elementwise fold_right]. rewrite bro_unit_r, bro_idem. reflexivity.
Qed.
Theorem C133_log_norm :
  (forall z_max kappa r, powerlaw_redshift z_max kappa = Some r -> scalars [z_max; kappa] -> log_norm r = Some []) /\
  (forall z_max kappa gamma z_peak r, madau_redshift z_max kappa gamma z_peak = Some r ->
     scalars [z_max; kappa; gamma; z_peak] -> log_norm r = Some []).
Proof.
  split.
  - intros z_max kappa r H S. unfold powerlaw_redshift in H. opened_scalars H S. cbn [log_norm].
    apply redshift_norm. intros n. cbn [elementwise fold_right]. rewrite ?bro_unit, ?bro_unit_r. reflexivity.
  - intros z_max kappa gamma z_peak r H S. unfold madau_redshift in H. opened_scalars H S. cbn [log_norm].
    apply redshift_norm. intros n. cbn [elementwise fold_right]. repeat rewrite ?bro_unit, ?bro_unit_r, ?bro_idem. reflexivity.
Qed.
(** For a vector of exponents it is not one number for each: the integral runs over the exponents, not over the redshift. *)
Transparent bro.
Lemma norm_of_vector N n : 2 <= N ->
  trapezoid (redshift_log_prob (fun x => elementwise [Some [n]; x]) (Some [N; 1])) (Some [N; 1]) =
  if n <=? 2 then if n =? 0 then trapezoid (Some [N; 0]) (Some [N; 1]) else Some [N] else None.
Proof.
  intros HN. unfold redshift_log_prob.
  assert (E : elementwise [Some [N; 1]; Some [N; 1]; elementwise [Some [n]; Some [N; 1]]] = Some [N; n]).
  { assert (P : bro (Some [n]) (Some [N; 1]) = Some [N; n]).
    { unfold bro. cbn [rev app rbro option_map]. rewrite dim_comm. reflexivity. }
    assert (Q : bro (Some [N; 1]) (Some [N; n]) = Some [N; n]).
    { unfold bro. cbn [rev app rbro option_map]. rewrite dim_idem. reflexivity. }
    cbn [elementwise fold_right]. rewrite !bro_unit_r, P, Q. exact Q. }
  transitivity (trapezoid (Some [N; n]) (Some [N; 1])); [f_equal; exact E|]. clear E. destruct n as [|[|[|n]]]; [reflexivity| | |]; unfold trapezoid; cbn;
    unfold dim; destruct (Nat.eqb_spec N 1); try lia; rewrite ?Nat.eqb_refl; try reflexivity.
Qed.
Theorem C133_log_norm_refuted n r : 1 <= n -> powerlaw_redshift [] [n] = Some r ->
  batch (z_dist r) = [n] /\ log_norm r = if n <=? 2 then Some [norm_points] else None.
Proof.
  intros Hn H. apply some_inj in H. subst r. cbn [batch z_dist log_norm]. split; [reflexivity|]. unfold redshift_log_norm.
  assert (G : 2 <= norm_points) by (unfold norm_points; apply Nat.leb_le; reflexivity).
  generalize dependent norm_points. intros N HN. transitivity (trapezoid (redshift_log_prob (fun x => elementwise [Some [n]; x]) (Some [N; 1])) (Some [N; 1])); [reflexivity|].
  rewrite norm_of_vector by exact HN. destruct n; [lia|]. reflexivity.
Qed.
Opaque bro.

(** The mass models that are normalised on a table are built for one set of parameters only, and then are as declared. *)
Theorem C133_tabulated params low high :
  ((exists d, tabulated params low high = Some d) <-> scalars (params ++ [low; high])) /\
  (forall d, tabulated params low high = Some d -> batch d = [] /\ event d = [2] /\ density_as_declared d).
Proof.
  unfold tabulated. destruct (broadcast_shapes (params ++ [low; high])) as [b|] eqn:E.
  - unfold linspace. cbn [elementwise fold_right]. rewrite bro_unit_r, bro_idem. cbn [option_map]. destruct b as [|x b].
    + split; [split; [intros _; apply bs_scalars; exact E|intros _; eexists; reflexivity]|].
      intros d H. apply some_inj in H. subst d. split; [reflexivity|]. split; [reflexivity|]. apply (density_of _ [2]); [reflexivity|].
      intros v. cbn [log_prob batch]. rewrite unstack_app, (promote_map _ _ E). cbn [length repeat].
      assert (P : forall l, map (fun s : shp => bro (Some s) (Some [])) l = map Some l) by (intros l; apply map_ext; intros s; apply bro_unit_r).
      cbv zeta. rewrite P. cbn [interp]. rewrite Nat.eqb_refl. cbn [elementwise fold_right]. fold (elementwise (map Some (params ++ [low; high]))).
      unfold broadcast_shapes in E. rewrite E. repeat rewrite ?bro_unit_r, ?bro_idem. reflexivity.
    + split; [|intros d H; discriminate H]. split; [intros (d & H); discriminate H|]. intros H. apply bs_scalars in H. congruence.
  - split; [|intros d H; discriminate H]. split; [intros (d & H); discriminate H|]. intros H. apply bs_scalars in H. congruence.
Qed.

Lemma flat_slice e : flat e -> slice e = e /\ size e = width e.
Proof. unfold flat. destruct e as [|n [|m e]]; cbn; [auto| |lia]. rewrite Nat.mul_1_r. auto. Qed.
Lemma joint_density l s : (forall d, In d l -> density_as_declared d /\ flat (event d)) ->
  elementwise (Some s :: map (fun d => log_prob d (s ++ slice (event d))) l) = bro (Some s) (broadcast_shapes (map batch l)).
Proof.
  induction l as [|d l IH]; intros H; [reflexivity|]. cbn [map] in *.
  destruct (H d (or_introl eq_refl)) as [Hd Fd]. rewrite (proj1 (flat_slice _ Fd)), (density_at _ _ Hd).
  unfold broadcast_shapes in *. cbn [map elementwise fold_right] in *. fold (elementwise (map Some (map batch l))) in *.
  fold (elementwise (map (fun d0 => log_prob d0 (s ++ slice (event d0))) l)) in *.
  rewrite bro_assoc, (bro_comm (Some s) (bro _ _)), <- bro_assoc, IH by (intros d' Hd'; apply H; right; exact Hd').
  rewrite bro_assoc, (bro_comm _ (Some s)), bro_assoc, bro_idem, <- bro_assoc. reflexivity.
Qed.
Lemma concat_widths (l : list nat) (ss : shp) : l <> [] ->
  concat_last (map (fun w => Some (ss ++ [w])) l) = Some (ss ++ [fold_right Nat.add 0 l]).
Proof.
  induction l as [|w l IH]; [congruence|]. intros _. destruct l as [|w' l].
  - cbn. rewrite Nat.add_0_r. destruct (ss ++ [w]) eqn:E; [destruct ss; discriminate E|reflexivity].
  - remember (w' :: l) as t. cbn [map concat_last fold_right]. rewrite IH by (subst t; discriminate). subst t. cbn [map].
    rewrite !rev_app_distr. cbn [rev app]. replace (shape_eqb _ _) with true by (symmetry; apply shape_eqb_eq; reflexivity).
    rewrite rev_involutive. reflexivity.
Qed.
Lemma concat_length n l r : concat_last l = Some r -> (forall s, In (Some s) l -> length s = n) -> length r = n.
Proof.
  revert r. induction l as [|x l IH]; intros r; [discriminate|]. destruct l as [|y l].
  - cbn. destruct x as [[|a x]|]; try discriminate. intros H Hn. injection H as <-. apply Hn. left. reflexivity.
  - intros H Hn. change (match x, concat_last (y :: l) with
      | Some a, Some b => match rev a, rev b with n :: ra, m :: rb => if shape_eqb ra rb then Some (rev ra ++ [n + m]) else None | _, _ => None end
      | _, _ => None end = Some r) in H.
    destruct x as [a|]; [|discriminate H]. destruct (concat_last (y :: l)) as [b|] eqn:E; [|discriminate H].
    destruct (rev a) as [|k ra] eqn:Ea; [discriminate H|]. destruct (rev b) as [|m rb]; [discriminate H|].
    destruct (shape_eqb ra rb); [|discriminate H]. injection H as <-. rewrite app_length, rev_length. cbn [length].
    rewrite <- (Hn a (or_introl eq_refl)), <- (rev_length a), Ea. cbn [length]. lia.
Qed.
Lemma concat_none l : In None l -> concat_last l = None.
Proof.
  induction l as [|x l IH]; [intros []|]. destruct l as [|y l]; [intros [->|[]]; reflexivity|].
  intros [->|H]; [reflexivity|]. specialize (IH H). cbn [concat_last] in *. destruct x; [|reflexivity]. rewrite IH. reflexivity.
Qed.
Lemma reshape_length s x r : reshape_last s x = Some r -> length r = length s + 1.
Proof.
  destruct x as [x|]; cbn; [|discriminate]. destruct (size s =? 0); [discriminate|]. destruct (size x mod size s =? 0); [|discriminate].
  intros H. injection H as <-. rewrite app_length. reflexivity.
Qed.
Lemma zero_size s : In 0 s -> size s = 0.
Proof. induction s as [|x s IH]; [intros []|]. cbn [size fold_right]. fold (size s). intros [->|H]; [reflexivity|]. rewrite (IH H). lia. Qed.

(** A joint distribution of independent parts. *)
Theorem C133_joint l d : joint l = Some d -> (forall x, In x l -> flat (event x)) ->
  common_shape (map batch l) (batch d) /\ event d = [fold_right Nat.add 0 (map (fun x => size (event x)) l)] /\
  ((forall x, In x l -> density_as_declared x) -> density_as_declared d) /\
  ((forall x, In x l -> draws_as_declared x /\ batch x = []) -> draws_as_declared d).
Proof.
  intros H F. unfold joint in H. destruct l as [|x0 l0] eqn:El; [discriminate H|]. rewrite <- El in *.
  destruct (broadcast_shapes (map batch l)) as [b|] eqn:E; [|discriminate H]. apply some_inj in H. subst d. cbn [batch event].
  split; [apply common_iff; exact E|].
  assert (W : map (fun x => size (event x)) l = map (fun x => width (event x)) l) by (apply map_ext_in; intros x Hx; apply flat_slice, F, Hx).
  rewrite W. split; [reflexivity|]. split.
  - intros D. apply (density_of _ _ eq_refl). intros v. cbn [log_prob batch event]. rewrite unstack_app.
    rewrite joint_density by (intros x Hx; split; [apply D|apply F]; exact Hx). rewrite E. reflexivity.
  - intros D ss Hs. cbn [sample batch event].
    assert (B : b = []).
    { assert (S : scalars (map batch l)). { intros s Hs'. apply in_map_iff in Hs'. destruct Hs' as (x & <- & Hx). apply D. exact Hx. }
      apply bs_scalars in S. congruence. }
    rewrite B. cbn [app]. rewrite <- concat_widths by (rewrite El; discriminate). rewrite map_map. f_equal. apply map_ext_in.
    intros x Hx. destruct (D x Hx) as [Dx Bx]. rewrite (Dx ss Hs), Bx. cbn [app]. rewrite (reshape_app ss _ Hs).
    rewrite (proj2 (flat_slice _ (F x Hx))). reflexivity.
Qed.
(** For a batch it never draws what it declares; and it cannot draw nothing. *)
Theorem C133_joint_refuted l d : joint l = Some d ->
  (batch d <> [] -> forall ss, sample d ss <> Some (ss ++ batch d ++ event d)) /\
  (forall ss, In 0 ss -> sample d ss = None).
Proof.
  intros H. unfold joint in H. destruct l as [|x0 l0] eqn:El; [discriminate H|]. rewrite <- El in *.
  destruct (broadcast_shapes (map batch l)) as [b|] eqn:E; [|discriminate H]. apply some_inj in H. subst d. cbn [batch event sample]. split.
  - intros B ss C. apply (concat_length (length ss + 1)) in C.
    + rewrite !app_length in C. cbn [length] in C. destruct b; [congruence|]. cbn [length] in C. lia.
    + intros s Hs. apply in_map_iff in Hs. destruct Hs as (x & Hx & _). eapply reshape_length. exact Hx.
  - intros ss Z. apply concat_none. apply in_map_iff. exists x0. split; [|rewrite El; left; reflexivity].
    unfold reshape_last. destruct (sample x0 ss); [|reflexivity]. rewrite (zero_size _ Z). reflexivity.
Qed.

(** A mixture with a scale for each component. *)
Lemma mixture_inv scales l d : scaled_mixture scales l = Some d ->
  l <> [] /\ (exists outer, rev scales = length l :: outer) /\ broadcast_shapes (map batch l) = Some (batch d) /\
  (forall x, In x l -> event x = event d).
Proof.
  unfold scaled_mixture. destruct l as [|d0 rest]; [discriminate|]. destruct (rev scales) as [|n outer]; [discriminate|].
  destruct (Nat.eqb_spec n (length (d0 :: rest))) as [->|]; [|discriminate]. cbn [andb].
  destruct (forallb _ rest) eqn:F; [|discriminate]. destruct (broadcast_shapes (map batch (d0 :: rest))); [|discriminate].
  intros H. apply some_inj in H. subst d. cbn [batch event]. split; [discriminate|]. split; [eexists; reflexivity|]. split; [reflexivity|].
  rewrite forallb_forall in F. intros x [<-|Hx]; [reflexivity|]. apply shape_eqb_eq. apply F. exact Hx.
Qed.
Lemma expand_ok x t : bro (Some (batch x)) (Some t) = Some t -> expand_sample x t = Some (t ++ event x).
Proof.
  intros H. unfold expand_sample. cbn [elementwise fold_right]. rewrite bro_unit_r, H.
  replace (shape_eqb t t) with true by (symmetry; apply shape_eqb_eq; reflexivity). reflexivity.
Qed.
Theorem C133_mixture n l d : scaled_mixture [n] l = Some d ->
  n = length l /\ common_shape (map batch l) (batch d) /\ (forall x, In x l -> event x = event d) /\
  draws_as_declared d /\
  ((forall x, In x l -> density_as_declared x /\ batch x = batch d) -> density_as_declared d).
Proof.
  intros H. destruct (mixture_inv _ _ _ H) as (Hl & (outer & Ho) & Hb & He). cbn in Ho. injection Ho as Hn <-.
  split; [exact Hn|]. split; [apply common_iff; exact Hb|]. split; [exact He|].
  unfold scaled_mixture in H. destruct l as [|d0 rest] eqn:El; [congruence|]. rewrite <- El in *. cbn [rev app] in H.
  destruct ((n =? length l) && _); [|discriminate H]. rewrite Hb in H. clear Hl.
  remember (batch d) as b eqn:Eb. apply some_inj in H. rewrite <- H in He |- *. clear H Eb d.
  cbn [batch event] in *. split.
  - intros ss _. cbn [sample batch event].
    replace (forallb _ l) with true.
    + cbn [elementwise fold_right rev]. rewrite bro_unit, bro_unit_r.
      replace (shape_eqb _ _) with true by (symmetry; apply shape_eqb_eq; reflexivity). rewrite <- app_assoc. reflexivity.
    + symmetry. apply forallb_forall. intros x Hx. rewrite expand_ok; [reflexivity|].
      rewrite <- (suffix_fits ss b) at 1. rewrite bro_comm, <- bro_assoc, (bro_comm (Some b)), <- Hb.
      unfold broadcast_shapes. rewrite ew_in by (apply in_map, in_map; exact Hx). fold (broadcast_shapes (map batch l)). rewrite Hb. apply suffix_fits.
  - intros D. apply (density_of _ _ eq_refl). intros v. cbn [log_prob batch event].
    assert (M : map (fun x => log_prob x (v ++ event d0)) l = repeat (bro (Some v) (Some b)) (S (length rest))).
    { replace (S (length rest)) with (length l) by (rewrite El; reflexivity). clear -D He. induction l as [|x l IH]; [reflexivity|].
      cbn [map length repeat]. f_equal; [|apply IH; intros; [apply He|apply D]; right; assumption].
      rewrite <- (He x (or_introl eq_refl)). destruct (D x (or_introl eq_refl)) as [Dx Bx]. rewrite (density_at _ _ Dx), Bx. reflexivity. }
    rewrite M. destruct (bro (Some v) (Some b)) as [c|]; [|reflexivity]. rewrite stack_same.
    replace (S (length rest)) with n by (rewrite Hn, El; reflexivity). cbn [elementwise fold_right]. rewrite bro_unit_r, bro_comm, suffix_fits.
    apply init_app.
Qed.
(** Components of different batch shapes cannot be stacked, though their batches have a common shape. *)
Theorem C133_mixture_refuted n a b : doubly_truncated [] [] [] = Some a -> doubly_truncated [n] [] [] = Some b ->
  density_as_declared a /\ density_as_declared b /\
  exists d, scaled_mixture [2] [a; b] = Some d /\ common_shape [[]; batch d] [n] /\ log_prob d [] = None.
Proof.
  intros Ha Hb. split; [eapply (proj1 C133_density); exact Ha|]. split; [eapply (proj1 C133_density); exact Hb|].
  pose proof (doubly_density _ _ _ _ [] Ha) as La. pose proof (doubly_density _ _ _ _ [] Hb) as Lb. rewrite !bro_unit in La, Lb.
  assert (Ba : batch a = [] /\ event a = []) by (apply some_inj in Ha; subst a; split; reflexivity).
  assert (Bb : batch b = [n] /\ event b = []) by (apply some_inj in Hb; subst b; split; reflexivity).
  destruct Ba as [Ba Ea], Bb as [Bb Eb]. unfold scaled_mixture. cbn [rev app map length forallb Nat.eqb andb]. rewrite Ea, Eb, Ba, Bb.
  replace (shape_eqb [] []) with true by reflexivity. cbn [andb].
  replace (broadcast_shapes [[]; [n]]) with (Some [n] : option shp) by reflexivity. eexists. split; [reflexivity|]. cbn [batch log_prob].
  split; [apply common2; rewrite bro_unit; reflexivity|].
  rewrite La, Lb, Ba, Bb. reflexivity.
Qed.

Definition widths (l : list marginal) : list nat := map (fun m => size (m_event m)) l.
(** A joint distribution some parts of which take their parameters from the values of others: the density. *)
Theorem C133_lazy_density l order d : lazy_joint l order = Some d ->
  (forall m, In m l -> flat (m_event m)) ->
  (forall x, In (Ready x) l -> density_as_declared x /\ batch x = []) ->
  (forall e deps f s, In (Waiting e deps f) l ->
     exists x, f (map (fun _ => s) deps) = Some x /\ density_as_declared x /\ event x = e /\ common_shape [s; batch x] s) ->
  batch d = [] /\ event d = [fold_right Nat.add 0 (widths l)] /\ density_as_declared d.
Proof.
  intros H F R W. unfold lazy_joint in H. destruct l as [|m0 l0] eqn:El; [discriminate H|]. destruct order as [|o0 o]; [discriminate H|].
  rewrite <- El in *. apply some_inj in H. subst d. cbn [batch event]. split; [reflexivity|].
  assert (Ew : widths l = map (fun m => width (m_event m)) l) by (apply map_ext_in; intros m Hm; apply flat_slice, F, Hm).
  rewrite Ew. split; [reflexivity|]. apply (density_of _ _ eq_refl). intros s. cbn [log_prob batch event]. rewrite unstack_app, bro_unit_r.
  unfold lazy_log_prob. clear El Ew m0 l0. induction l as [|m l IH]; [cbn; apply bro_unit_r|]. cbn [map elementwise fold_right] in *.
  match goal with |- bro _ (bro ?y (fold_right bro (Some []) ?t)) = _ => assert (Y : y = Some s) end.
  { specialize (F m (or_introl eq_refl)). destruct m as [x|e deps f]; cbn [m_event] in F; rewrite (proj1 (flat_slice _ F)).
    - destruct (R x (or_introl eq_refl)) as [Dx Bx]. rewrite (density_at _ _ Dx), Bx. apply bro_unit_r.
    - destruct (W e deps f s (or_introl eq_refl)) as (x & -> & Dx & <- & Cx). rewrite (density_at _ _ Dx). apply common2. exact Cx. }
  rewrite Y, bro_assoc, bro_idem. apply IH.
  - intros m' Hm'. apply F. right. exact Hm'.
  - intros x Hx. apply R. right. exact Hx.
  - intros e deps f s' Hx. apply W. right. exact Hx.
Qed.

(** what has been drawn so far: parts not yet drawn hold one column *)
Definition so_far (l : list marginal) (ss : shp) (rest : list nat) (k : nat) : option shp :=
  match nth_error l k with
  | None => None
  | Some m => Some (ss ++ [match m with Ready _ => size (m_event m) | Waiting e _ _ => if existsb (Nat.eqb k) rest then size e else 1 end])
  end.
Lemma put_nth i x l k : nth k (put i x l) None = if (k =? i) && (k <? length l) then x else nth k l None.
Proof.
  revert i k. induction l as [|a l IH]; intros i k; [destruct i, k; cbn [put nth length]; rewrite ?andb_false_r; reflexivity|].
  destruct i as [|i], k as [|k]; cbn [put nth]; try reflexivity. rewrite IH. reflexivity.
Qed.
Lemma put_length i x l : length (put i x l) = length l.
Proof. revert i. induction l as [|a l IH]; intros [|i]; cbn; auto. Qed.
Lemma all_some_const {A} (l : list nat) (g : nat -> option A) a : (forall v, In v l -> g v = Some a) -> all_some (map g l) = Some (map (fun _ => a) l).
Proof.
  induction l as [|v l IH]; intros H; [reflexivity|]. cbn [map all_some]. rewrite (H v (or_introl eq_refl)), IH; [reflexivity|].
  intros w Hw. apply H. right. exact Hw.
Qed.
Section lazily.
Variables (l : list marginal) (ss : shp).
Hypothesis (Hs : ~ In 0 ss) (F : forall m, In m l -> flat (m_event m))
  (R : forall x, In (Ready x) l -> draws_as_declared x /\ batch x = [])
  (W : forall e deps f, In (Waiting e deps f) l ->
     (forall v, In v deps -> exists m, nth_error l v = Some m /\ size (m_event m) = 1) /\
     exists x, f (map (fun _ => ss ++ [1]) deps) = Some x /\ draws_as_declared x /\ event x = e /\ batch x = ss ++ [1] /\
               length ss <= 1 + length e).
Lemma lazy_start k : nth k (lazy_first l ss) None = so_far l ss [] k.
Proof.
  unfold lazy_first, so_far. destruct (nth_error l k) as [m|] eqn:E.
  - apply nth_error_nth. erewrite map_nth_error by exact E. apply nth_error_In in E. destruct m as [x|e deps f]; [|reflexivity].
    destruct (R x E) as [Dx Bx]. rewrite (Dx ss Hs), Bx. cbn [app m_event]. rewrite (reshape_app ss _ Hs). reflexivity.
  - apply nth_error_None in E. apply nth_overflow. rewrite map_length. exact E.
Qed.
Lemma lazy_next drawn samples i : length samples = length l -> (forall k, nth k samples None = so_far l ss drawn k) ->
  length (lazy_step l ss samples i) = length l /\ forall k, nth k (lazy_step l ss samples i) None = so_far l ss (i :: drawn) k.
Proof.
  intros L H. unfold lazy_step. destruct (nth_error l i) as [[x|e deps f]|] eqn:E.
  - split; [exact L|]. intros k. rewrite H. unfold so_far. destruct (nth_error l k) as [[y|e deps f]|] eqn:K; try reflexivity.
    cbn [existsb]. destruct (Nat.eqb_spec k i) as [->|]; [congruence|reflexivity].
  - split; [rewrite put_length; exact L|]. destruct (W e deps f (nth_error_In _ _ E)) as (Hd & x & Hx & Dx & Ex & Bx & Lx).
    rewrite (all_some_const deps _ (ss ++ [1])).
    2:{ intros v Hv. rewrite H. unfold so_far. destruct (Hd v Hv) as (m & -> & Sm). destruct m as [y|e' deps' f']; cbn [m_event] in Sm |- *; rewrite Sm; [reflexivity|].
        destruct (existsb _ _); reflexivity. }
    rewrite Hx. rewrite skipn_all2 by (rewrite Ex; lia). rewrite (Dx [] (fun z => z)), Bx, Ex. cbn [app]. rewrite <- app_assoc.
    rewrite (reshape_app ss _ Hs). intros k. rewrite put_nth, L, H.
    assert (Sz : size ([1] ++ e) = size e) by (unfold size; cbn [app fold_right]; apply Nat.mul_1_l). rewrite Sz. unfold so_far. cbn [existsb].
    destruct (Nat.eqb_spec k i) as [->|N]; cbn [andb orb].
    + assert (Li : i < length l) by (apply nth_error_Some; congruence). apply Nat.ltb_lt in Li. rewrite Li, E. reflexivity.
    + reflexivity.
  - split; [exact L|]. intros k. rewrite H. unfold so_far. destruct (nth_error l k) as [[y|e deps f]|] eqn:K; try reflexivity.
    cbn [existsb]. destruct (Nat.eqb_spec k i) as [->|]; [congruence|reflexivity].
Qed.
Lemma lazy_all order : forall drawn samples, length samples = length l -> (forall k, nth k samples None = so_far l ss drawn k) ->
  length (fold_left (lazy_step l ss) order samples) = length l /\ forall k, nth k (fold_left (lazy_step l ss) order samples) None = so_far l ss (rev order ++ drawn) k.
Proof.
  induction order as [|i order IH]; intros drawn samples L H; [split; assumption|].
  destruct (lazy_next drawn samples i L H) as [L' H']. cbn [fold_left rev]. rewrite <- app_assoc. cbn [app]. apply IH; assumption.
Qed.
Lemma lazy_result order : (forall k e deps f, nth_error l k = Some (Waiting e deps f) -> In k order) ->
  fold_left (lazy_step l ss) order (lazy_first l ss) = map (fun w => Some (ss ++ [w])) (widths l).
Proof.
  intros O. destruct (lazy_all order [] (lazy_first l ss)) as [L H]; [apply map_length|apply lazy_start|]. rewrite app_nil_r in H.
  apply (nth_ext _ _ None None); [unfold widths; rewrite L, !map_length; reflexivity|]. intros k Hk. rewrite L in Hk. rewrite H. symmetry.
  apply nth_error_nth. unfold so_far, widths. rewrite map_map. destruct (nth_error l k) as [m|] eqn:K; [|apply nth_error_None in K; lia].
  erewrite map_nth_error by exact K. destruct m as [x|e deps f]; [reflexivity|].
  replace (existsb _ _) with true; [reflexivity|]. symmetry. apply existsb_exists. exists k. split; [|apply Nat.eqb_refl].
  rewrite <- in_rev. eapply O. exact K.
Qed.
End lazily.
(** The draws, when each part that waits is in [order], waits for numbers, and is asked for at most one axis more than it has. *)
Theorem C133_lazy_draws l order d ss : lazy_joint l order = Some d -> ~ In 0 ss ->
  (forall m, In m l -> flat (m_event m)) ->
  (forall x, In (Ready x) l -> draws_as_declared x /\ batch x = []) ->
  (forall k e deps f, nth_error l k = Some (Waiting e deps f) -> In k order) ->
  (forall e deps f, In (Waiting e deps f) l ->
     (forall v, In v deps -> exists m, nth_error l v = Some m /\ size (m_event m) = 1) /\
     exists x, f (map (fun _ => ss ++ [1]) deps) = Some x /\ draws_as_declared x /\ event x = e /\ batch x = ss ++ [1] /\
               length ss <= 1 + length e) ->
  sample d ss = Some (ss ++ batch d ++ event d).
Proof.
  intros H Hs F R O W. unfold lazy_joint in H. destruct l as [|m0 l0] eqn:El; [discriminate H|]. destruct order as [|o0 o] eqn:Eo; [discriminate H|].
  rewrite <- El, <- Eo in *. apply some_inj in H. subst d. cbn [batch event sample app].
  rewrite (lazy_result l ss Hs R W order O).
  assert (Ew : widths l = map (fun m => width (m_event m)) l) by (apply map_ext_in; intros m Hm; apply flat_slice, F, Hm).
  rewrite Ew. rewrite concat_widths by (rewrite El; discriminate). reflexivity.
Qed.

(** A pair of masses, the larger of which bounds the smaller: with two axes of draws there are too many columns. *)
Definition bounded (k : list shp) : option dist := match k with [s] => doubly_truncated [] [] s | _ => None end.
Definition pair (a : dist) : list marginal := [Ready a; Waiting [] [0] bounded].
Theorem C133_lazy_refuted a d n m : doubly_truncated [] [] [] = Some a -> lazy_joint (pair a) [1] = Some d -> 0 < n -> 0 < m ->
  batch d = [] /\ event d = [2] /\ sample d [n] = Some [n; 2] /\ sample d [n; m] = Some [n; m; 1 + m].
Proof.
  intros Ha Hd Hn Hm. pose proof (proj1 C133_draws _ _ _ _ Ha) as Da.
  assert (Ba : batch a = [] /\ event a = []) by (apply some_inj in Ha; subst a; split; reflexivity). destruct Ba as [Ba Ea].
  assert (G : forall s, exists x, doubly_truncated [] [] s = Some x /\ batch x = s /\ event x = []).
  { intros s. apply (proj1 (C133_batch s)). apply common_iff. unfold broadcast_shapes. cbn [map elementwise fold_right]. rewrite !bro_unit, bro_unit_r. reflexivity. }
  pose proof (some_inj _ _ _ Hd) as Ed. split; [subst d; reflexivity|]. split; [subst d; cbn [event pair map m_event]; rewrite Ea; reflexivity|]. split.
  - replace [n; 2] with ([n] ++ batch d ++ event d) by (subst d; cbn [batch event pair map m_event]; rewrite Ea; reflexivity).
    apply (C133_lazy_draws _ _ _ _ Hd).
    + intros [->|[]]. lia.
    + intros x [<-|[<-|[]]]; unfold flat; cbn [m_event]; rewrite ?Ea; cbn; lia.
    + intros x [X|[X|[]]]; [|discriminate X]. injection X as <-. split; [exact Da|exact Ba].
    + intros [|[|k]] e deps f K; cbn in K; [discriminate K|left; reflexivity|destruct k; discriminate K].
    + intros e deps f [X|[X|[]]]; [discriminate X|]. injection X as <- <- <-. split.
      * intros v [<-|[]]. exists (Ready a). cbn [nth_error pair m_event]. rewrite Ea. split; reflexivity.
      * destruct (G ([n] ++ [1])) as (x & Hx & Bx & Ex). exists x. split; [exact Hx|].
        split; [exact (proj1 C133_draws _ _ _ _ Hx)|]. split; [exact Ex|]. split; [exact Bx|cbn; lia].
  - subst d. cbn [sample pair lazy_first map fold_left lazy_step nth_error nth].
    assert (Hz : ~ In 0 [n; m]) by (intros [->|[->|[]]]; lia).
    rewrite (Da _ Hz), Ba, Ea. cbn [app]. replace (reshape_last [n; m] (Some [n; m])) with (Some [n; m; 1] : option shp).
    2:{ symmetry. exact (reshape_app [n; m] [] Hz). }
    cbn [all_some option_map bounded]. destruct (G [n; m; 1]) as (x & Hx & Bx & Ex). rewrite Hx, Ex. cbn [length Nat.add skipn].
    assert (Hz' : ~ In 0 [m]) by (intros [->|[]]; lia).
    rewrite (proj1 C133_draws _ _ _ _ Hx _ Hz'), Bx, Ex. cbn [app].
    assert (Z : reshape_last [n; m] (Some [m; n; m; 1]) = Some [n; m; m]).
    { unfold reshape_last. replace (size [m; n; m; 1]) with (m * size [n; m]) by (cbn; lia).
      pose proof (size_pos _ Hz) as P. destruct (Nat.eqb_spec (size [n; m]) 0); [contradiction|].
      rewrite Nat.mod_mul, Nat.div_mul by exact P. reflexivity. }
    rewrite Z. cbn [put]. pose proof (concat_widths [1; m] [n; m] ltac:(discriminate)) as Q.
    cbn [map app fold_right] in Q. rewrite Nat.add_0_r in Q. exact Q.
Qed.

Example C133_lazy_nonvacuous a d : doubly_truncated [] [] [] = Some a -> lazy_joint (pair a) [1] = Some d -> density_as_declared d.
Proof.
  intros Ha Hd. assert (Ba : batch a = [] /\ event a = []) by (apply some_inj in Ha; subst a; split; reflexivity). destruct Ba as [Ba Ea].
  apply (C133_lazy_density _ _ _ Hd).
  - intros x [<-|[<-|[]]]; unfold flat; cbn [m_event]; rewrite ?Ea; cbn; lia.
  - intros x [X|[X|[]]]; [|discriminate X]. injection X as <-. split; [eapply (proj1 C133_density); exact Ha|exact Ba].
  - intros e deps f s [X|[X|[]]]; [discriminate X|]. injection X as <- <- <-. cbn [map bounded].
    destruct (proj2 (proj1 (C133_batch s) [] [] s)) as (x & Hx & Bx & Ex).
    { apply common_iff. unfold broadcast_shapes. cbn [map elementwise fold_right]. rewrite !bro_unit, bro_unit_r. reflexivity. }
    exists x. split; [exact Hx|]. split; [eapply (proj1 C133_density); exact Hx|]. split; [exact Ex|]. rewrite Bx. apply common2, bro_idem.
Qed.
Example C133_nonvacuous :
  (exists d, doubly_truncated [3; 1] [] [4] = Some d /\ batch d = [3; 4] /\ log_prob d [5; 1; 4] = Some [5; 3; 4] /\
             log_prob d [2; 4] = None /\ sample d [7] = Some [7; 3; 4]) /\
  doubly_truncated [3] [2] [] = None /\
  (exists a b d, doubly_truncated [3] [] [] = Some a /\ powerlaw_primary_mass_ratio [] [] [] [] = Some b /\ joint [a; b] = Some d /\
                 batch d = [3] /\ event d = [3] /\ log_prob d [6; 1; 3] = Some [6; 3] /\ sample d [6] = Some [6; 5]) /\
  (exists a d, doubly_truncated [] [] [] = Some a /\ joint [a; a] = Some d /\ sample d [4; 5] = Some [4; 5; 2]) /\
  (exists a d, doubly_truncated [3] [] [] = Some a /\ scaled_mixture [2] [a; a] = Some d /\ log_prob d [4; 1] = Some [4; 3] /\
               sample d [5] = Some [5; 3]).
Proof.
  Transparent bro.
  split; [eexists; split; [reflexivity|]; repeat split|]. split; [reflexivity|].
  split; [do 3 eexists; split; [reflexivity|]; split; [reflexivity|]; split; [reflexivity|]; repeat split|].
  split; [do 2 eexists; split; [reflexivity|]; split; [reflexivity|]; reflexivity|].
  do 2 eexists. split; [reflexivity|]. split; [reflexivity|]. split; reflexivity.
Qed.
Print Assumptions C133_batch.
Print Assumptions C133_density.
Print Assumptions C133_z_max_refuted.
Print Assumptions C133_draws.
Print Assumptions C133_draws_refuted.
Print Assumptions C133_log_norm.
Print Assumptions C133_log_norm_refuted.
Print Assumptions C133_tabulated.
Print Assumptions C133_joint.
Print Assumptions C133_joint_refuted.
Print Assumptions C133_mixture.
Print Assumptions C133_mixture_refuted.
Print Assumptions C133_lazy_density.
Print Assumptions C133_lazy_draws.
Print Assumptions C133_lazy_refuted.
