(** C139: the settings file of the loader of posterior samples. *)
From Coq Require Import String Ascii List Bool ZArith Reals Lia Lra Permutation Sorting.Sorted.
From Verif Require Import Model_X Model_Settings Model_Discrete Model_LoaderFile Spec_LoaderFile Proofs_LoaderFile.
Import ListNotations.
Open Scope string_scope.

(** A loader is made exactly from the files that name a pattern with at least one match, do not
    give file names themselves, and hold readable settings; it has these settings, and the
    matches in order of their names. *)
Theorem C139_accepted : forall glob numeral content files l,
  (forall pattern, NoDup (glob pattern)) -> (forall d, content = Some (JObj d) -> dictionary d) ->
  from_json glob numeral content = Some (files, l) <->
  exists d pattern, content = Some (JObj d) /\ has d "regex" (JStr pattern) /\ lacks d "filenames" /\
    glob pattern <> [] /\ Permutation files (glob pattern) /\ increasing files /\ asks_for numeral d l.
Proof.
  intros glob numeral content files l G HD. split.
  - unfold from_json. destruct content as [[]|]; try discriminate. rename fields into d. specialize (HD d eq_refl).
    destruct (entry d "regex") as [[]|] eqn:E; try discriminate. rename s into pattern.
    pose proof (sorted_perm (glob pattern)) as P. pose proof (sorted_increasing _ (G pattern)) as I.
    destruct (sorted (glob pattern)) as [|f fs] eqn:S; [discriminate|].
    rewrite entry_without by discriminate. destruct (entry d "filenames") eqn:F; [discriminate|].
    rewrite construct_without. destruct (construct numeral d) as [l'|] eqn:C; [|discriminate]. cbn. intros H. injection H as <- <-.
    exists d, pattern. split; [reflexivity|]. split; [now apply entry_some|]. split; [now apply entry_none|].
    split; [intros X; rewrite X in P; apply Permutation_sym, Permutation_nil in P; discriminate|]. split; [exact P|]. split; [exact I|].
    now apply construct_spec.
  - intros (d & pattern & -> & HR & HF & Hne & HP & HI & HA). specialize (HD d eq_refl).
    apply (entry_some _ _ _ HD) in HR. apply entry_none in HF. apply (construct_spec _ _ HD) in HA.
    unfold from_json. rewrite HR.
    assert (S : sorted (glob pattern) = files).
    { apply increasing_unique; [apply sorted_increasing, G|exact HI|]. rewrite sorted_perm. now symmetry. }
    rewrite S. destruct files as [|f fs]; [apply Permutation_nil in HP; contradiction|].
    rewrite entry_without, HF, construct_without, HA by discriminate. reflexivity.
Qed.
Print Assumptions C139_accepted.

(** Neither the order in which the directory lists the files nor the order of the keys matters. *)
Theorem C139_order : forall glob glob' numeral d d',
  (forall pattern, Permutation (glob pattern) (glob' pattern)) -> dictionary d -> Permutation d d' ->
  from_json glob numeral (Some (JObj d)) = from_json glob' numeral (Some (JObj d')).
Proof.
  intros glob glob' numeral d d' HG D P.
  assert (D' : dictionary d') by (unfold dictionary in *; now rewrite <- P).
  assert (E : forall k, entry d k = entry d' k).
  { intros k. destruct (entry d k) as [v|] eqn:A.
    - apply (entry_some _ _ _ D) in A. symmetry. apply (entry_some _ _ _ D'). unfold has in *. now rewrite <- P.
    - destruct (entry d' k) as [v|] eqn:B; [|reflexivity]. apply (entry_some _ _ _ D') in B. unfold has in B. rewrite <- P in B.
      apply (entry_some _ _ _ D) in B. congruence. }
  rewrite (from_json_entries glob numeral d d') by (intros; apply E).
  unfold from_json. destruct (entry d' "regex") as [[]|]; try reflexivity. now rewrite (sorted_eq _ _ (HG s)).
Qed.
Print Assumptions C139_order.

(** The catalogue has one event for every file, in order of the names; event [i] is what the
    loader makes of its file with the seed [seed + i]. *)
Theorem C139_events : forall glob numeral disk positions logdVcdz z_to_DL dDLdz cp ccp content parameters seed data lps,
  catalogue glob numeral disk positions logdVcdz z_to_DL dDLdz cp ccp content parameters seed = Some (data, lps) ->
  exists files l, from_json glob numeral content = Some (files, l) /\
    length data = length files /\ length lps = length files /\
    forall i name, nth_error files i = Some name -> exists f d w, disk name = Some f /\
      nth_error data i = Some d /\ nth_error lps i = Some w /\
      load_event l positions logdVcdz z_to_DL dDLdz cp ccp parameters f (seed + Z.of_nat i) = Some (d, w).
Proof.
  intros glob numeral disk positions V L DL cp ccp content ps seed data lps H. unfold catalogue in H.
  destruct (from_json glob numeral content) as [[files l]|]; [|discriminate]. exists files, l. split; [reflexivity|].
  destruct (sequence (map disk files)) as [frames|] eqn:F; [|discriminate]. unfold load in H.
  assert (G : forall files frames k data lps, sequence (map disk files) = Some frames ->
    load_from l positions V L DL cp ccp ps k frames seed = Some (data, lps) ->
    length data = length files /\ length lps = length files /\
    forall i name, nth_error files i = Some name -> exists f d w, disk name = Some f /\
      nth_error data i = Some d /\ nth_error lps i = Some w /\
      load_event l positions V L DL cp ccp ps f (seed + Z.of_nat (k + i)) = Some (d, w)).
  { clear. induction files as [|name files IH]; intros frames k data lps F H; cbn in F.
    - injection F as <-. cbn in H. injection H as <- <-. repeat split. intros [|i] name; discriminate.
    - destruct (disk name) as [f|] eqn:E; [|discriminate]. cbn in F. destruct (sequence (map disk files)) as [fs|] eqn:Q; [|discriminate].
      cbn in F. injection F as <-. cbn [load_from] in H.
      destruct (load_event _ _ _ _ _ _ _ _ f _) as [[d w]|] eqn:Ev; [|discriminate]. cbn [Model_Injections.bind] in H.
      destruct (load_from _ _ _ _ _ _ _ _ (S k) fs seed) as [[ds ws]|] eqn:R; [|discriminate]. cbn in H. injection H as <- <-.
      destruct (IH fs (S k) ds ws eq_refl R) as (L1 & L2 & K). cbn [length]. split; [lia|]. split; [lia|].
      intros [|i] n Hn; cbn in Hn.
      + injection Hn as <-. exists f, d, w. rewrite Nat.add_0_r. repeat split; assumption.
      + destruct (K i n Hn) as (f' & d' & w' & H1 & H2 & H3 & H4). exists f', d', w'. replace (k + S i)%nat with (S k + i)%nat by lia. repeat split; assumption. }
  exact (G files frames 0%nat data lps F H).
Qed.
Print Assumptions C139_events.

(** An event that is not thinned is the same whatever other files there are. *)
Theorem C139_alone : forall l positions logdVcdz z_to_DL dDLdz cp ccp parameters f s s',
  (forall n, max_samples l = Some n -> (length (rows f) <= n)%nat) ->
  load_event l positions logdVcdz z_to_DL dDLdz cp ccp parameters f s =
  load_event l positions logdVcdz z_to_DL dDLdz cp ccp parameters f s'.
Proof.
  intros l positions V L DL cp ccp ps f s s' H. unfold load_event.
  assert (E : subsample l positions (rows f) s = subsample l positions (rows f) s').
  { unfold subsample. destruct (max_samples l) as [n|]; [|reflexivity]. specialize (H n eq_refl). apply Nat.leb_le in H. now rewrite H. }
  now rewrite E.
Qed.
Print Assumptions C139_alone.

(** A thinned event is not: the seed is that of its place, so that another file whose name comes
    first changes the samples taken from it. *)
Theorem C139_thinned_refuted : exists glob glob' numeral disk positions d,
  (forall s n total, (n <= total)%nat -> NoDup (positions s n total) /\ length (positions s n total) = n /\
                     forall i, In i (positions s n total) -> (i < total)%nat) /\
  dictionary d /\
  (forall name, In name (glob "*.dat") -> In name (glob' "*.dat")) /\
  forall logdVcdz z_to_DL dDLdz cp ccp,
  catalogue glob numeral disk positions logdVcdz z_to_DL dDLdz cp ccp (Some (JObj d)) ["x"] 37 = Some ([[[Fin 2]]], [[Fin 0]]) /\
  catalogue glob' numeral disk positions logdVcdz z_to_DL dDLdz cp ccp (Some (JObj d)) ["x"] 37 =
    Some ([[[Fin 2]]; [[Fin 1]]], [[Fin 0]; [Fin 0]]).
Proof.
  exists (fun _ => ["b.dat"]), (fun _ => ["b.dat"; "a.dat"]), (fun _ => None),
    (fun _ => Some {| columns := ["x"]; rows := [[("x", Fin 1)]; [("x", Fin 2)]] |}),
    (fun s n total => if Z.odd s then rev (seq (total - n) n) else seq 0 n),
    [("regex", JStr "*.dat"); ("max_samples", JInt 1)].
  split.
  { intros s n total H. destruct (Z.odd s).
    - rewrite rev_length, seq_length. split; [apply NoDup_rev, seq_NoDup|]. split; [reflexivity|]. intros i Hi. apply in_rev in Hi. apply in_seq in Hi. lia.
    - rewrite seq_length. split; [apply seq_NoDup|]. split; [reflexivity|]. intros i Hi. apply in_seq in Hi. lia. }
  split; [repeat constructor; cbn; intuition discriminate|]. split; [cbn; tauto|]. intros V L DL cp ccp.
  assert (Z : (0 + 0 + 0 + 0 = 0)%R) by ring.
  split; unfold catalogue; cbn; change (Pos.to_nat 1) with 1%nat; cbn; rewrite ?Z; reflexivity.
Qed.
Print Assumptions C139_thinned_refuted.

(** Keys that mean nothing are ignored, so that a setting with a misspelled name is dropped
    without a word. *)
Theorem C139_ignored : forall glob numeral d k v, ~ In k known_keys ->
  from_json glob numeral (Some (JObj ((k, v) :: d))) = from_json glob numeral (Some (JObj d)).
Proof.
  intros glob numeral d k v N. apply from_json_entries. intros k' Hk'. cbn. destruct (String.eqb_spec k k') as [->|]; [contradiction|reflexivity].
Qed.
Print Assumptions C139_ignored.
Theorem C139_ignored_refuted : forall glob numeral f, glob "*.dat" = [f] ->
  exists l, from_json glob numeral (Some (JObj [("regex", JStr "*.dat"); ("mass-prior", JStr "flat-source-components")])) = Some ([f], l) /\
    mass_prior l = None.
Proof. intros glob numeral f G. eexists. unfold from_json. cbn. rewrite G. cbn. split; reflexivity. Qed.
Print Assumptions C139_ignored_refuted.

Example C139_nonvacuous :
  from_json (fun _ => ["events/b.dat"; "events/a.dat"]) (fun _ => None)
    (Some (JObj [("regex", JStr "events/*.dat"); ("max_samples", JInt 500); ("parameter_aliases", JObj [("redshift", JStr "z")]);
                 ("mass_prior", JStr "flat-detector-components"); ("distance_prior", JStr "comoving"); ("spin_prior", JNull)])) =
  Some (["events/a.dat"; "events/b.dat"],
        Build_loader [("redshift", "z")] (Some 500%nat) (Some FlatDetectorComponents) false (Some Comoving)).
Proof. reflexivity. Qed.
Example C139_refused_nonvacuous :
  from_json (fun _ => ["a.dat"]) (fun _ => None) (Some (JObj [("regex", JStr "*.dat"); ("max_samples", JInt 0)])) = None /\
  from_json (fun _ => ["a.dat"]) (fun _ => None) (Some (JObj [("regex", JStr "*.dat"); ("mass_prior", JStr "flat")])) = None /\
  from_json (fun _ => ["a.dat"]) (fun _ => None) (Some (JObj [("regex", JStr "*.dat"); ("filenames", JList [])])) = None /\
  from_json (fun _ => []) (fun _ => None) (Some (JObj [("regex", JStr "*.dat")])) = None.
Proof. repeat split. Qed.
