(** C117: which sampler settings the flowMC driver accepts, and the mass matrix it hands to the sampler. *)
From Coq Require Import String Ascii List Arith Bool ZArith Reals Lra Lia.
From Coquelicot Require Import Coquelicot.
From Verif Require Import Model_X Spec_X Model_Key Model_FlowMC Spec_FlowMC Props_FlowMC Proofs_HMC Props_HMC Model_Settings Spec_Settings
  Proofs_Settings Spec_Invariance.
Import ListNotations.
Open Scope string_scope.

Lemma positive_check v : positive_integer v <-> exists z, int_value v = Some z /\ (1 <= z)%Z.
Proof.
  split.
  - intros [->|(z & -> & Hz)]; eexists; split; try reflexivity; auto with zarith.
  - intros (z & E & Hz). destruct v; try discriminate; injection E as <-.
    + destruct b; [left; reflexivity|lia].
    + right. eauto.
Qed.
Lemma integer_check v : an_integer v <-> is_some (int_value v) = true.
Proof.
  split.
  - intros [[b ->]|[z ->]]; reflexivity.
  - destruct v; try discriminate; intros _; [left|right]; eauto.
Qed.
Lemma number_check v : a_number v <-> is_some (number v) = true.
Proof.
  split.
  - intros [[[b ->]|[z ->]]|[x ->]]; reflexivity.
  - destruct v; try discriminate; intros _; [left; left|left; right|right]; eauto.
Qed.
Lemma check_required cfg k : default k = None -> value cfg k = cfg k.
Proof. intros D. unfold value. rewrite D. now destruct (cfg k). Qed.
Lemma check_count cfg k : k <> "chain_batch_size" ->
  check_entry cfg (k, KInt) = true <-> exists v, value cfg k = Some v /\ positive_integer v.
Proof.
  intros N. unfold check_entry, has_type. apply String.eqb_neq in N. rewrite N.
  destruct (value cfg k) as [v|]; [|split; [discriminate|intros (v & E & _); discriminate]].
  split.
  - intros H. exists v. split; [reflexivity|]. apply positive_check. destruct (int_value v) as [z|]; [|discriminate].
    exists z. split; [reflexivity|]. cbn in H. destruct (Z.ltb_spec z 1); [discriminate|lia].
  - intros (v' & E & P). injection E as <-. apply positive_check in P. destruct P as (z & -> & Hz). cbn.
    destruct (Z.ltb_spec z 1); [lia|reflexivity].
Qed.

Lemma check_count_required cfg k : k <> "chain_batch_size" -> default k = None ->
  check_entry cfg (k, KInt) = true <-> cfg k <> None /\ forall v, cfg k = Some v -> positive_integer v.
Proof.
  intros N D. rewrite (check_count cfg k N), (check_required cfg k D). split.
  - intros (v & E & P). rewrite E. split; [discriminate|]. intros w Hw. now injection Hw as <-.
  - intros (H & P). destruct (cfg k) as [v|]; [|congruence]. exists v. auto.
Qed.
Lemma check_count_optional cfg k z : k <> "chain_batch_size" -> default k = Some (JInt z) -> (1 <= z)%Z ->
  check_entry cfg (k, KInt) = true <-> forall v, cfg k = Some v -> positive_integer v.
Proof.
  intros N D Hz. rewrite (check_count cfg k N). unfold value. rewrite D. destruct (cfg k) as [w|]; split.
  - intros (v & E & P) u Hu. injection E as ->. now injection Hu as <-.
  - intros P. exists w. auto.
  - intros _ v E. discriminate.
  - intros _. exists (JInt z). split; [reflexivity|]. right. eauto.
Qed.
Ltac by_cases_of_value := let v := fresh "v" in
  match goal with |- context [match ?o with Some _ => _ | None => _ end] => destruct o as [v|] end.

Definition other_checks (cfg : settings) : Prop :=
  (cfg "chain_batch_size" <> None /\ forall v, cfg "chain_batch_size" = Some v -> an_integer v)
  /\ (cfg "learning_rate" <> None /\ forall v, cfg "learning_rate" = Some v -> a_number v)
  /\ (cfg "step_size" <> None /\ forall v, cfg "step_size" = Some v -> a_number v)
  /\ (cfg "verbose" <> None /\ forall v, cfg "verbose" = Some v -> exists b, v = JBool b)
  /\ (forall v, cfg "rq_spline_range" = Some v -> (exists l, v = JList l) \/ (exists s, v = JStr s) \/ exists o, v = JObj o).
Lemma check_chain_batch cfg : check_entry cfg ("chain_batch_size", KInt) = true
  <-> cfg "chain_batch_size" <> None /\ forall v, cfg "chain_batch_size" = Some v -> an_integer v.
Proof.
  unfold check_entry. rewrite (check_required cfg "chain_batch_size" eq_refl). destruct (cfg "chain_batch_size") as [v|].
  - cbn [has_type]. split.
    + intros H. split; [discriminate|]. intros w Hw. injection Hw as <-. apply integer_check. now apply andb_prop in H as [H _].
    + intros [_ H]. specialize (H v eq_refl). apply integer_check in H. rewrite H. cbn [andb].
      destruct (int_value v); [|discriminate]. cbn. now rewrite andb_false_r.
  - split; [discriminate|]. intros [H _]. congruence.
Qed.
Lemma check_number cfg k : default k = None -> check_entry cfg (k, KNumber) = true
  <-> cfg k <> None /\ forall v, cfg k = Some v -> a_number v.
Proof.
  intros D. unfold check_entry. rewrite (check_required cfg k D). destruct (cfg k) as [v|].
  - cbn [has_type]. rewrite andb_true_r. split.
    + intros H. split; [discriminate|]. intros w Hw. injection Hw as <-. now apply number_check.
    + intros [_ H]. apply number_check. now apply H.
  - split; [discriminate|]. intros [H _]. congruence.
Qed.
Lemma check_verbose cfg : check_entry cfg ("verbose", KBool) = true
  <-> cfg "verbose" <> None /\ forall v, cfg "verbose" = Some v -> exists b, v = JBool b.
Proof.
  unfold check_entry. rewrite (check_required cfg "verbose" eq_refl). destruct (cfg "verbose") as [v|].
  - split.
    + intros H. split; [discriminate|]. intros w Hw. injection Hw as <-. destruct v; try discriminate. eauto.
    + intros [_ H]. destruct (H v eq_refl) as [b ->]. reflexivity.
  - split; [discriminate|]. intros [H _]. congruence.
Qed.
Lemma check_range cfg : check_entry cfg ("rq_spline_range", KTuple) = true
  <-> forall v, cfg "rq_spline_range" = Some v -> (exists l, v = JList l) \/ (exists s, v = JStr s) \/ exists o, v = JObj o.
Proof.
  unfold check_entry, value. destruct (cfg "rq_spline_range") as [v|].
  - split.
    + intros H w Hw. injection Hw as <-. destruct v; try discriminate; eauto.
    + intros H. destruct (H v eq_refl) as [[l ->]|[[s ->]|[o ->]]]; reflexivity.
  - split; [intros _ v E; discriminate|reflexivity].
Qed.
Lemma check_list cfg : check_entry cfg ("rq_spline_hidden_units", KList) && check_hidden_units cfg = true
  <-> cfg "rq_spline_hidden_units" <> None
      /\ forall v, cfg "rq_spline_hidden_units" = Some v -> exists l, v = JList l /\ List.Forall positive_integer l.
Proof.
  unfold check_entry, check_hidden_units. rewrite (check_required cfg "rq_spline_hidden_units" eq_refl).
  destruct (cfg "rq_spline_hidden_units") as [v|].
  - split.
    + intros H. split; [discriminate|]. intros w Hw. injection Hw as <-. destruct v as [| | | | |l|]; try discriminate.
      exists l. split; [reflexivity|]. apply andb_prop in H as [_ H]. rewrite forallb_forall in H. apply Forall_forall.
      intros x Hx. specialize (H x Hx). apply positive_check. unfold positive_int in H. destruct (int_value x) as [z|]; [|discriminate].
      exists z. split; [reflexivity|]. apply Z.ltb_lt in H. lia.
    + intros [_ H]. destruct (H v eq_refl) as (l & -> & P). cbn. rewrite forallb_forall. rewrite Forall_forall in P.
      intros x Hx. specialize (P x Hx). apply positive_check in P. destruct P as (z & E & Hz). unfold positive_int. rewrite E.
      apply Z.ltb_lt. lia.
  - split; [discriminate|]. intros [H _]. congruence.
Qed.
Lemma blank_white c : blank c = true <-> white c.
Proof.
  unfold blank, white. set (n := Ascii.nat_of_ascii c). rewrite orb_true_iff, !andb_true_iff, !Nat.leb_le. cbn [In]. lia.
Qed.
Lemma lower_same c d : lower_char c = d -> same_letter c d.
Proof.
  intros <-. unfold lower_char, same_letter. destruct ((65 <=? _) && _)%nat eqn:E; [|left; reflexivity]. right.
  destruct c as [[] [] [] [] [] [] [] []]; try discriminate E; vm_compute; tauto.
Qed.
Lemma same_lower c d : In d (list_ascii_of_string "malhc") -> same_letter c d -> lower_char c = d.
Proof.
  intros Hd [->|H].
  - cbn in Hd. repeat (destruct Hd as [<-|Hd]; [reflexivity|]). destruct Hd.
  - cbn in H. repeat (destruct H as [H|H]; [injection H as <- <-; reflexivity|]). destruct H.
Qed.
Lemma drop_blank_split l : exists a, l = (a ++ drop_blank l)%list /\ List.Forall white a.
Proof.
  induction l as [|c l (a & E & Ha)]; [exists []; split; [reflexivity|constructor]|]. cbn [drop_blank]. destruct (blank c) eqn:Eb.
  - exists (c :: a). split; [cbn; rewrite <- E; reflexivity|]. constructor; [apply blank_white; exact Eb|exact Ha].
  - exists []. split; [reflexivity|constructor].
Qed.
Lemma drop_blank_app a l : List.Forall white a -> drop_blank (a ++ l) = drop_blank l.
Proof. induction 1 as [|c a Hc _ IH]; [reflexivity|]. cbn [app drop_blank]. apply blank_white in Hc. rewrite Hc. exact IH. Qed.
Lemma drop_blank_letter c l : blank c = false -> drop_blank (c :: l) = c :: l.
Proof. intros E. cbn. rewrite E. reflexivity. Qed.
Lemma letter_not_blank c d : In d (list_ascii_of_string "malhc") -> same_letter c d -> blank c = false.
Proof.
  intros Hd [->|H].
  - cbn in Hd. repeat (destruct Hd as [<-|Hd]; [reflexivity|]). destruct Hd.
  - cbn in H. repeat (destruct H as [H|H]; [injection H as <- <-; reflexivity|]). destruct H.
Qed.
Lemma strip_names s name : name = "mala" \/ name = "hmc" -> (lower (strip s) = name <-> names_sampler s name).
Proof.
  intros Hname. unfold names_sampler, lower, strip. rewrite list_ascii_of_string_of_list_ascii.
  set (l := list_ascii_of_string s). split.
  - intros E. destruct (drop_blank_split l) as (a & Ea & Ha). destruct (drop_blank_split (rev (drop_blank l))) as (b & Eb & Hb).
    exists a, (rev (drop_blank (rev (drop_blank l)))), (rev b). repeat split.
    + rewrite <- rev_app_distr, <- Eb, rev_involutive. exact Ea.
    + exact Ha.
    + apply Forall_rev. exact Hb.
    + rewrite <- E, list_ascii_of_string_of_list_ascii. generalize (rev (drop_blank (rev (drop_blank l)))) as w.
      induction w as [|c w IH]; constructor; [apply lower_same; reflexivity|exact IH].
  - intros (a & w & b & E & Ha & Hb & Hw). rewrite E, drop_blank_app by exact Ha.
    assert (Hletters : List.Forall (fun d => In d (list_ascii_of_string "malhc")) (list_ascii_of_string name)).
    { destruct Hname as [->| ->]; cbn; repeat constructor; cbn; tauto. }
    assert (Hnb : List.Forall (fun c => blank c = false) w).
    { clear -Hw Hletters. induction Hw as [|c d w n Hc Hw IH]; constructor; inversion Hletters; subst; [eapply letter_not_blank; eassumption|auto]. }
    assert (Hne : w <> []) by (intros ->; inversion Hw as [E'|]; destruct Hname as [->| ->]; discriminate).
    assert (Hlow : map lower_char w = list_ascii_of_string name).
    { clear -Hw Hletters. induction Hw as [|c d w n Hc Hw IH]; [reflexivity|]. inversion Hletters; subst. cbn [map].
      rewrite (same_lower c d), IH; auto. }
    assert (D1 : drop_blank (w ++ b) = (w ++ b)%list).
    { destruct w as [|c w]; [congruence|]. inversion Hnb; subst. cbn [app]. apply drop_blank_letter. assumption. }
    rewrite D1, rev_app_distr, drop_blank_app by (apply Forall_rev; exact Hb).
    assert (D2 : drop_blank (rev w) = rev w).
    { apply Forall_rev in Hnb. destruct (rev w) as [|c w']; [reflexivity|]. inversion Hnb; subst. apply drop_blank_letter. assumption. }
    rewrite D2, rev_involutive, Hlow. apply string_of_list_ascii_of_string.
Qed.
Lemma check_name cfg : check_entry cfg ("local_sampler_name", KStr) && check_sampler_name cfg = true
  <-> forall v, cfg "local_sampler_name" = Some v -> exists s, v = JStr s /\ (names_sampler s "mala" \/ names_sampler s "hmc").
Proof.
  unfold check_entry, check_sampler_name, sampler_name, value. destruct (cfg "local_sampler_name") as [v|].
  - split.
    + intros H w Hw. injection Hw as <-. destruct v; try discriminate. exists s. split; [reflexivity|].
      apply andb_prop in H as [_ H]. apply orb_prop in H as [H|H]; apply String.eqb_eq in H; [left|right]; apply strip_names; auto.
    + intros H. destruct (H v eq_refl) as (s & -> & [E|E]); apply strip_names in E; auto; rewrite E; reflexivity.
  - split; [intros _ v E; discriminate|reflexivity].
Qed.

Definition mass_type (v : json) : Prop := a_number v \/ (exists s, v = JStr s) \/ exists l, v = JList l.
Lemma check_mass cfg : check_entry cfg ("mass_matrix", KMass) = true <-> forall v, cfg "mass_matrix" = Some v -> mass_type v.
Proof.
  unfold check_entry, value. destruct (cfg "mass_matrix") as [v|].
  - split.
    + intros H w Hw. injection Hw as <-. rewrite andb_true_r in H. destruct v; try discriminate; unfold mass_type; try (left; apply number_check; exact H); eauto.
    + intros H. rewrite andb_true_r. destruct (H v eq_refl) as [N|[[s ->]|[l ->]]]; try reflexivity.
      apply number_check in N. destruct v; try discriminate; reflexivity.
  - split; [intros _ v E; discriminate|reflexivity].
Qed.

Lemma checks_iff cfg : forallb (check_entry cfg) checked && check_hidden_units cfg && check_sampler_name cfg = true
  <-> well_formed cfg /\ forall v, cfg "mass_matrix" = Some v -> mass_type v.
Proof.
  rewrite !andb_true_iff. rewrite forallb_forall.
  assert (R : forall k, In k ["batch_size"; "global_thinning"; "local_thinning"; "n_chains"; "n_epochs"; "n_global_steps";
      "n_local_steps"; "n_max_examples"; "n_NFproposal_batch_size"; "n_production_loops"; "n_training_loops";
      "rq_spline_n_bins"; "rq_spline_n_layers"] ->
      In (k, KInt) checked /\ In k required /\ In k counts /\ default k = None /\ k <> "chain_batch_size").
  { intros k H. cbn [In] in H. repeat (destruct H as [<-|H]; [repeat split; try reflexivity; try discriminate; cbn; tauto|]). destruct H. }
  split.
  - intros [[C H] N]. split.
    + assert (Rk : forall k, In k ["batch_size"; "global_thinning"; "local_thinning"; "n_chains"; "n_epochs"; "n_global_steps";
        "n_local_steps"; "n_max_examples"; "n_NFproposal_batch_size"; "n_production_loops"; "n_training_loops";
        "rq_spline_n_bins"; "rq_spline_n_layers"] -> cfg k <> None /\ forall v, cfg k = Some v -> positive_integer v).
      { intros k Hk. destruct (R k Hk) as (Hc & _ & _ & D & Nk). apply (check_count_required cfg k Nk D). now apply C. }
      assert (Hl : check_entry cfg ("n_leapfrog", KInt) = true) by (apply C; cbn; tauto).
      assert (Hh : check_entry cfg ("history_window", KInt) = true) by (apply C; cbn; tauto).
      rewrite (check_count_optional cfg "n_leapfrog" 10) in Hl; [|discriminate|reflexivity|lia].
      rewrite (check_count_optional cfg "history_window" 100) in Hh; [|discriminate|reflexivity|lia].
      destruct (proj1 (check_chain_batch cfg)) as [B1 B2]; [apply C; cbn; tauto|].
      destruct (proj1 (check_number cfg "learning_rate" eq_refl)) as [L1 L2]; [apply C; cbn; tauto|].
      destruct (proj1 (check_number cfg "step_size" eq_refl)) as [S1 S2]; [apply C; cbn; tauto|].
      destruct (proj1 (check_verbose cfg)) as [V1 V2]; [apply C; cbn; tauto|].
      destruct (proj1 (check_list cfg)) as [U1 U2]; [rewrite H, andb_true_r; apply C; cbn; tauto|].
      assert (Nm := proj1 (check_name cfg)). rewrite N, andb_true_r in Nm. specialize (Nm ltac:(apply C; cbn; tauto)).
      assert (Rg := proj1 (check_range cfg) ltac:(apply C; cbn; tauto)).
      split; [|split; [|repeat split; auto]].
      * intros k Hk. cbn [In required] in Hk.
        repeat (destruct Hk as [<-|Hk]; [first [assumption | apply Rk; cbn; tauto]|]). destruct Hk.
      * intros k v Hk E. cbn [In counts] in Hk.
        repeat (destruct Hk as [<-|Hk]; [first [now apply Hl | now apply Hh | (eapply Rk; [|exact E]; cbn; tauto)]|]). destruct Hk.
    + apply check_mass. apply C. cbn. tauto.
  - intros [(W1 & W2 & W3 & W4 & W5 & W6 & W7 & W8 & W9) Mt].
    assert (U : cfg "rq_spline_hidden_units" <> None) by (apply W1; cbn; tauto).
    assert (HU := proj2 (check_list cfg) (conj U W7)). apply andb_prop in HU as [HU1 HU2].
    assert (HN := proj2 (check_name cfg) W9). apply andb_prop in HN as [HN1 HN2].
    split; [split|]; auto. intros e He.
    assert (Hreq : forall k, In k ["batch_size"; "global_thinning"; "local_thinning"; "n_chains"; "n_epochs"; "n_global_steps";
        "n_local_steps"; "n_max_examples"; "n_NFproposal_batch_size"; "n_production_loops"; "n_training_loops";
        "rq_spline_n_bins"; "rq_spline_n_layers"] -> check_entry cfg (k, KInt) = true).
    { intros k Hk. destruct (R k Hk) as (_ & Hr & Hc & D & Nk). apply (check_count_required cfg k Nk D). split; [now apply W1|].
      intros v. now apply W2. }
    cbn [In checked] in He.
    repeat (destruct He as [<-|He];
      [first [ assumption
             | apply Hreq; cbn; tauto
             | apply check_chain_batch; split; [apply W1; cbn; tauto|exact W3]
             | apply (check_number cfg "learning_rate" eq_refl); split; [apply W1; cbn; tauto|assumption]
             | apply (check_number cfg "step_size" eq_refl); split; [apply W1; cbn; tauto|assumption]
             | apply check_verbose; split; [apply W1; cbn; tauto|exact W6]
             | apply check_range; exact W8
             | apply check_mass; exact Mt
             | apply (check_count_optional cfg "n_leapfrog" 10); [discriminate|reflexivity|lia|intros v; apply W2; cbn; tauto]
             | apply (check_count_optional cfg "history_window" 100); [discriminate|reflexivity|lia|intros v; apply W2; cbn; tauto] ]|]).
    destruct He.
Qed.

(** C117: accepted settings are well formed: every key without a default is given, every count is a positive integer,
    the layers of the flow are positive integers, the sampler is named MALA or HMC up to case and blanks *)
Theorem C117_accepted_well_formed : forall eigvalsh n cfg m, accept eigvalsh n cfg = Some m -> well_formed cfg.
Proof.
  intros eig n cfg m H. unfold accept in H. destruct (forallb _ _ && _ && _) eqn:E; [|discriminate].
  now apply checks_iff in E.
Qed.
Print Assumptions C117_accepted_well_formed.

(** conversely, well-formed settings are accepted when the mass matrix is missing, a positive number, or a list of
    positive numbers, one for each dimension; the matrix handed to the sampler is the multiple of the identity or the
    diagonal matrix that is meant *)
Theorem C117_diagonal_accepted : forall eigvalsh n cfg d,
  well_formed cfg -> (forall i, (i < n)%nat -> (0 < d i)%R) ->
  (cfg "mass_matrix" = None /\ (forall i, d i = 1%R))
  \/ (exists v x, cfg "mass_matrix" = Some v /\ number v = Some (Fin x) /\ (0 < x)%R /\ forall i, d i = x)
  \/ (exists l, cfg "mass_matrix" = Some (JList l) /\ numbers l = Some (map (fun i => Fin (d i)) (seq 0 n))) ->
  exists A, accept eigvalsh n cfg = Some (Matrix A)
    /\ forall i j, (i < n)%nat -> (j < n)%nat -> A i j = Fin (if (i =? j)%nat then d i else 0%R).
Proof.
  intros eig n cfg d W D H.
  assert (T : forall v, cfg "mass_matrix" = Some v -> mass_type v).
  { intros v E. destruct H as [[H _]|[(w & x & H & Hn & _)|(l & H & _)]]; rewrite H in E.
    - discriminate.
    - injection E as <-. left. apply number_check. now rewrite Hn.
    - injection E as <-. right. right. eauto. }
  unfold accept. rewrite (proj2 (checks_iff cfg) (conj W T)). unfold value.
  assert (Sc : forall x, (0 < x)%R -> (forall i, d i = x) -> forall i j : nat,
    xmul (Fin (if (i =? j)%nat then 1%R else 0%R)) (Fin x) = Fin (if (i =? j)%nat then d i else 0%R)).
  { intros x Hx Hd i j. cbn [xmul]. f_equal. destruct (i =? j)%nat; [rewrite Hd|]; ring. }
  assert (Np : forall x, (0 < x)%R -> xleb (Fin x) (Fin 0) = false).
  { intros x Hx. cbn. destruct (Rle_dec x 0); [lra|reflexivity]. }
  destruct H as [[H Hd]|[(v & x & H & Hn & Hx & Hd)|(l & H & Hl)]]; rewrite H.
  - cbn [default String.eqb Ascii.eqb Bool.eqb]. unfold read_mass. cbn [number]. rewrite Np by lra.
    eexists. split; [reflexivity|]. intros i j _ _. apply Sc; [lra|exact Hd].
  - unfold read_mass. rewrite Hn, Np by exact Hx. eexists. split; [reflexivity|]. intros i j _ _. now apply Sc.
  - unfold read_mass. cbn [number int_value]. rewrite Hl, map_length, seq_length, Nat.eqb_refl.
    replace (existsb _ _) with false.
    + eexists. split; [reflexivity|]. intros i j Hi Hj. cbv beta. destruct (Nat.eqb_spec i j) as [->|]; [|reflexivity].
      rewrite (nth_indep _ _ (Fin (d 0%nat))) by (now rewrite map_length, seq_length).
      rewrite (map_nth (fun i => Fin (d i))). now rewrite seq_nth.
    + symmetry. apply not_true_is_false. intros Ex. apply existsb_exists in Ex as (x & Hx & Hle).
      apply in_map_iff in Hx as (i & <- & Hi). apply in_seq in Hi. rewrite Np in Hle by (apply D; lia). discriminate.
Qed.
Print Assumptions C117_diagonal_accepted.

(** if the mass matrix handed to the sampler has finite entries and is symmetric, then it is positive definite, and it
    has a Cholesky factor and an inverse *)
Theorem C117_positive_definite : forall eigvalsh n cfg A M,
  eigenvalues_of_symmetric_part eigvalsh ->
  accept eigvalsh n cfg = Some (Matrix A) ->
  (forall i j, (i < n)%nat -> (j < n)%nat -> A i j = Fin (M i j)) -> symmetric n M ->
  positive_definite n M /\ exists L Minv, cholesky n M L /\ right_inverse n M Minv.
Proof.
  intros eig n cfg A M Eig H HA S.
  assert (P : positive_definite n M).
  { unfold accept in H. destruct (forallb _ _ && _ && _); [|discriminate]. destruct (value cfg "mass_matrix") as [v|]; [|discriminate].
    assert (Dg : forall d, (forall i, (i < n)%nat -> M i i = d i /\ (0 < d i)%R)
                 -> (forall i j, (i < n)%nat -> (j < n)%nat -> i <> j -> M i j = 0%R) -> positive_definite n M).
    { intros d Hd Ho. destruct (diagonal_definite n d) as [_ Q]; [intros i Hi; now apply Hd|].
      intros x Hx. specialize (Q x Hx). replace (form n M x) with (form n (fun i j => if (i =? j)%nat then d i else 0%R) x); [exact Q|].
      unfold form. apply total_ext. intros i Hi. apply total_ext. intros j Hj. destruct (Nat.eqb_spec i j) as [<-|Ne].
      - destruct (Hd i Hi) as [-> _]. reflexivity.
      - now rewrite (Ho i j Hi Hj Ne). }
    assert (Nle : forall r, xleb (Fin r) (Fin 0) = false -> (0 < r)%R).
    { intros r Hr. cbn in Hr. destruct (Rle_dec r 0); [discriminate|lra]. }
    unfold read_mass in H. destruct (number v) as [x|] eqn:Nv.
    - destruct (xleb x (Fin 0)) eqn:Lx; [discriminate|]. injection H as H.
      destruct n as [|n]; [intros y (i & Hi & _); lia|].
      assert (exists r, x = Fin r) as [r ->].
      { specialize (HA 0%nat 0%nat ltac:(lia) ltac:(lia)). rewrite <- H in HA. cbn in HA. destruct x; cbn in HA.
        - eauto.
        - unfold xinf_times in HA. destruct (Rlt_dec 0 1); [discriminate|lra].
        - unfold xinf_times in HA. destruct (Rlt_dec 0 1); [discriminate|lra].
        - discriminate. }
      apply (Dg (fun _ => r)).
      + intros i Hi. specialize (HA i i Hi Hi). rewrite <- H, Nat.eqb_refl in HA. cbn in HA. injection HA as HA. split; [lra|now apply Nle].
      + intros i j Hi Hj Ne. specialize (HA i j Hi Hj). rewrite <- H in HA. apply Nat.eqb_neq in Ne. rewrite Ne in HA. cbn in HA.
        injection HA as HA. lra.
    - destruct v as [| | | | |l|]; try discriminate. destruct (numbers l) as [d|].
      + destruct (Nat.eqb_spec (length d) n) as [Ln|]; [|discriminate]. destruct (existsb _ d) eqn:Ex; [discriminate|]. injection H as H.
        apply (Dg (fun i => M i i)).
        * intros i Hi. split; [reflexivity|]. specialize (HA i i Hi Hi). rewrite <- H, Nat.eqb_refl in HA. apply Nle.
          destruct (xleb (Fin (M i i)) (Fin 0)) eqn:Le; [|reflexivity].
          enough (existsb (fun x => xleb x (Fin 0)) d = true) by congruence. apply existsb_exists. exists (nth i d (Fin 0)).
          split; [apply nth_In; lia|]. now rewrite HA.
        * intros i j Hi Hj Ne. specialize (HA i j Hi Hj). rewrite <- H in HA. apply Nat.eqb_neq in Ne. rewrite Ne in HA. now injection HA as <-.
      + destruct (number_rows l) as [rows|]; [|discriminate]. destruct (_ && _); [|discriminate]. destruct (existsb _ _) eqn:Ex; [discriminate|].
        injection H as H. subst A. destruct (Eig n (entry rows) M HA) as [Fn [Ep _]].
        assert (Q : positive_definite n (fun i j => ((M i j + M j i) / 2)%R)).
        { apply Ep. intros r Hr. apply Nle. destruct (xleb (Fin r) (Fin 0)) eqn:Le; [|reflexivity].
          enough (existsb (fun x => xleb x (Fin 0)) (eig n (entry rows)) = true) by congruence. apply existsb_exists. eauto. }
        intros x Hx. specialize (Q x Hx). replace (form n M x) with (form n (fun i j => ((M i j + M j i) / 2)%R) x); [exact Q|].
        unfold form. apply total_ext. intros i Hi. apply total_ext. intros j Hj. rewrite (S j i Hj Hi). field. }
  split; [exact P|]. destruct (cholesky_exists n M S P) as [L HL]. destruct (inverse_exists n M L HL) as [Minv Hi]. eauto.
Qed.
Print Assumptions C117_positive_definite.

(** so one step of the sampler with such a mass matrix leaves the target invariant (C116), whatever Cholesky factor and
    inverse are computed *)
Theorem C117_target_invariant : forall eigvalsh n cfg A M,
  eigenvalues_of_symmetric_part eigvalsh ->
  accept eigvalsh n cfg = Some (Matrix A) ->
  (forall i j, (i < n)%nat -> (j < n)%nat -> A i j = Fin (M i j)) -> symmetric n M ->
  exists L Minv, cholesky n M L /\ right_inverse n M Minv /\
  forall velocity gradient step_size n_leapfrog logpdf f,
  gradient_of (quadratic n Minv) velocity ->
  (forall i, (i < n)%nat -> continuous_coords (seq 0 n) (fun x => gradient x i)) ->
  (forall x, fin_or_ninf (logpdf x)) -> continuous_coords (seq 0 n) (fun x => wexp (logpdf x)) ->
  (forall x, (0 <= f x)%R) -> continuous_coords (seq 0 n) f ->
  integral_xz n (fun x z => (joint n logpdf x z * mean_after n L Minv velocity gradient step_size n_leapfrog logpdf f x z)%R)
  = integral_xz n (fun x z => (joint n logpdf x z * f x)%R).
Proof.
  intros eig n cfg A M Eig H HA S.
  destruct (C117_positive_definite eig n cfg A M Eig H HA S) as (_ & L & Minv & HL & HI). exists L, Minv.
  split; [exact HL|]. split; [exact HI|]. intros. now apply (C116_invariant n M L Minv).
Qed.
Print Assumptions C117_target_invariant.

Definition template_settings : settings := of_list template.
Lemma template_well_formed : well_formed template_settings.
Proof.
  assert (E : forallb (check_entry template_settings) checked && check_hidden_units template_settings && check_sampler_name template_settings = true)
    by reflexivity.
  now apply checks_iff in E.
Qed.
(** the template that the script writes is accepted, for every number of dimensions *)
Theorem C117_template_accepted : forall eigvalsh n, exists A, accept eigvalsh n template_settings = Some (Matrix A)
  /\ forall i j, (i < n)%nat -> (j < n)%nat -> A i j = Fin (if (i =? j)%nat then 1%R else 0%R).
Proof.
  intros eig n. apply (C117_diagonal_accepted eig n template_settings (fun _ => 1%R)).
  - exact template_well_formed.
  - intros; lra.
  - right; left. exists (JFloat (Fin 1)), 1%R. repeat split; try reflexivity. lra.
Qed.
Print Assumptions C117_template_accepted.

(** the claim that the mass matrix is symmetric positive definite is false in general: the driver also accepts a matrix
    that is not symmetric, NaN, and a text *)
Theorem C117_mass_matrix_refuted : forall eigvalsh, eigenvalues_of_symmetric_part eigvalsh ->
  let num x := JFloat (Fin x) in
  (exists A, accept eigvalsh 2 (update template_settings "mass_matrix" (JList [JList [num 1%R; num 1%R]; JList [num 0%R; num 1%R]]))
     = Some (Matrix A) /\ A 0%nat 1%nat = Fin 1 /\ A 1%nat 0%nat = Fin 0)
  /\ (forall n, exists A, accept eigvalsh n (update template_settings "mass_matrix" (JFloat NaN)) = Some (Matrix A)
        /\ forall i j, A i j = NaN)
  /\ (forall n s, accept eigvalsh n (update template_settings "mass_matrix" (JStr s)) = Some (Unchecked (JStr s))).
Proof.
  intros eig Eig num. split; [|split].
  - set (v := JList [JList [num 1%R; num 1%R]; JList [num 0%R; num 1%R]]). set (cfg := update template_settings "mass_matrix" v).
    assert (E : forallb (check_entry cfg) checked && check_hidden_units cfg && check_sampler_name cfg = true) by reflexivity.
    unfold accept. rewrite E. change (value cfg "mass_matrix") with (Some v). unfold read_mass.
    change (number v) with (@None X). unfold v, num. cbn [numbers number int_value number_rows length Nat.eqb forallb andb].
    set (rows := [[Fin 1; Fin 1]; [Fin 0; Fin 1]]).
    set (M := fun i j : nat => match i, j with 0, 0 => 1 | 0, 1 => 1 | 1, 1 => 1 | _, _ => 0 end%nat).
    destruct (Eig 2%nat (entry rows) (fun i j => IZR (Z.of_nat (M i j)))) as [Fn [_ Ep]].
    { intros i j Hi Hj. destruct i as [|[|i]], j as [|[|j]]; try lia; reflexivity. }
    assert (P : positive_definite 2 (fun i j => ((IZR (Z.of_nat (M i j)) + IZR (Z.of_nat (M j i))) / 2)%R)).
    { intros x (i & Hi & Hx). unfold form, total. cbn.
      assert (Q : (x 0%nat <> 0 \/ x 1%nat <> 0)%R) by (destruct i as [|[|i]]; [left|right|lia]; exact Hx).
      assert (Sq : (0 < x 0%nat * x 0%nat + x 1%nat * x 1%nat)%R) by (destruct Q; nra).
      assert (T := Rle_0_sqr (x 0%nat + x 1%nat)). unfold Rsqr in T. nra. }
    specialize (Ep P). replace (existsb _ (eig 2%nat (entry rows))) with false.
    + eexists. split; [reflexivity|]. split; reflexivity.
    + symmetry. apply not_true_is_false. intros Ex. apply existsb_exists in Ex as (x & Hx & Hle).
      destruct (Fn x Hx) as [r ->]. specialize (Ep r Hx). cbn in Hle. destruct (Rle_dec r 0); [lra|discriminate].
  - intros n. set (cfg := update template_settings "mass_matrix" (JFloat NaN)).
    assert (E : forallb (check_entry cfg) checked && check_hidden_units cfg && check_sampler_name cfg = true) by reflexivity.
    unfold accept. rewrite E. change (value cfg "mass_matrix") with (Some (JFloat NaN)). cbn [read_mass number xleb].
    eexists. split; [reflexivity|]. intros i j. cbn. reflexivity.
  - intros n s. set (cfg := update template_settings "mass_matrix" (JStr s)).
    assert (E : forallb (check_entry cfg) checked && check_hidden_units cfg && check_sampler_name cfg = true) by reflexivity.
    unfold accept. now rewrite E.
Qed.
Print Assumptions C117_mass_matrix_refuted.

(** the claim that an accepted run saves samples is false: the driver accepts a thinning larger than the number of
    steps, and then no version of the samples file has a row, whatever the samplers return *)
Theorem C117_empty_run_refuted : exists cfg,
  (forall eigvalsh n, accept eigvalsh n cfg <> None)
  /\ kept_per_loop cfg "n_local_steps" "local_thinning" = Some 0%nat
  /\ forall local_out global_out n_global n_chains n_dims t p versions,
       saved_versions local_out global_out 0 n_global n_chains n_dims t p = Some versions ->
       List.Forall (fun file => file = []) versions.
Proof.
  exists (update template_settings "local_thinning" (JInt 301)). split; [|split].
  - intros eig n. set (cfg := update _ _ _).
    assert (E : forallb (check_entry cfg) checked && check_hidden_units cfg && check_sampler_name cfg = true) by reflexivity.
    unfold accept. rewrite E. change (value cfg "mass_matrix") with (Some (JFloat (Fin 1))). unfold read_mass. cbn [number xleb].
    destruct (Rle_dec 1 0); [lra|discriminate].
  - reflexivity.
  - intros lo go ng nc nd t p versions H. unfold saved_versions in H. destruct (sample_schedule _ _) as [sch|]; [|discriminate].
    injection H as <-.
    assert (Z : forall s, save_samples 0 ng nc ((0 + ng) * p) s = []).
    { intros s. unfold save_samples. replace (selected_indices 0 ng ((0 + ng) * p)) with (@nil nat).
      - cbn [map]. induction (seq 0 nc) as [|c l IH]; [reflexivity|exact IH].
      - unfold selected_indices. induction (seq 0 ((0 + ng) * p)) as [|a l IH]; [reflexivity|]. cbn. exact IH. }
    generalize (run_strategies lo go 0 ng (concat (tuning sch) ++ transition sch)%list (initial_state 0 ng nd t p)).
    induction (concat (sampling sch)) as [|nm l IH]; intros s; cbn [run_and_save]; [constructor|].
    specialize (IH (run_strategy lo go 0 ng nm s)). destruct (run_and_save lo go 0 ng nc (ng * p) l (run_strategy lo go 0 ng nm s)) as [s' sv].
    cbn [snd] in *. constructor; [apply Z|exact IH].
Qed.
Print Assumptions C117_empty_run_refuted.

(** concrete settings meeting the hypotheses: the template with a diagonal mass matrix, a count of zero, a missing key,
    and a sampler name in capitals with blanks *)
Example C117_nonvacuous : forall eigvalsh,
  (exists A, accept eigvalsh 2 (update template_settings "mass_matrix" (JList [JInt 2; JFloat (Fin (/ 2))])) = Some (Matrix A)
     /\ A 0%nat 0%nat = Fin 2 /\ A 0%nat 1%nat = Fin 0 /\ A 1%nat 1%nat = Fin (/ 2))
  /\ accept eigvalsh 2 (update template_settings "mass_matrix" (JList [JInt 2; JInt 0])) = None
  /\ accept eigvalsh 3 (update template_settings "mass_matrix" (JList [JInt 2; JInt 1])) = None
  /\ accept eigvalsh 2 (update template_settings "n_chains" (JInt 0)) = None
  /\ accept eigvalsh 2 (fun k => if String.eqb k "n_chains" then None else template_settings k) = None
  /\ accept eigvalsh 2 (update template_settings "local_sampler_name" (JStr " MALA ")) <> None
  /\ uses_hmc (update template_settings "local_sampler_name" (JStr " MALA ")) = false
  /\ uses_hmc template_settings = true
  /\ accept eigvalsh 2 (update template_settings "local_sampler_name" (JStr "nuts")) = None.
Proof.
  intros eig. repeat split.
  - destruct (C117_diagonal_accepted eig 2 (update template_settings "mass_matrix" (JList [JInt 2; JFloat (Fin (/ 2))]))
      (fun i => match i with 0%nat => 2%R | _ => (/ 2)%R end)) as (A & E & HA).
    + assert (E : let cfg := update template_settings "mass_matrix" (JList [JInt 2; JFloat (Fin (/ 2))]) in
        forallb (check_entry cfg) checked && check_hidden_units cfg && check_sampler_name cfg = true) by reflexivity.
      now apply checks_iff in E.
    + intros [|i] _; lra.
    + right; right. eexists. split; reflexivity.
    + exists A. split; [exact E|]. rewrite !HA by lia. repeat split; reflexivity.
  - set (cfg := update _ _ _).
    assert (E : forallb (check_entry cfg) checked && check_hidden_units cfg && check_sampler_name cfg = true) by reflexivity.
    unfold accept. rewrite E. change (value cfg "mass_matrix") with (Some (JList [JInt 2; JInt 0])). unfold read_mass. cbn.
    destruct (Rle_dec 2 0); [lra|]. destruct (Rle_dec 0 0); [reflexivity|lra].
  - set (cfg := update _ _ _). unfold accept. change (value cfg "local_sampler_name") with (Some (JStr " MALA ")).
    assert (E : forallb (check_entry cfg) checked && check_hidden_units cfg && check_sampler_name cfg = true) by reflexivity.
    rewrite E. change (value cfg "mass_matrix") with (Some (JFloat (Fin 1))). unfold read_mass. cbn [number xleb].
    destruct (Rle_dec 1 0); [lra|discriminate].
Qed.
