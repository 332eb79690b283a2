From Coq Require Import String Ascii List Bool ZArith Reals Lia Lra Permutation Sorting.Sorted.
From Verif Require Import Model_X Model_Settings Model_Discrete Model_LoaderFile Spec_LoaderFile.
Import ListNotations.
Open Scope string_scope.

(** ** order of texts *)
Lemma ascii_lt_trans : forall a b c, Ascii.compare a b = Lt -> Ascii.compare b c = Lt -> Ascii.compare a c = Lt.
Proof. intros a b c. unfold Ascii.compare. rewrite !N.compare_lt_iff. lia. Qed.
Lemma lt_trans : forall a b c, String.compare a b = Lt -> String.compare b c = Lt -> String.compare a c = Lt.
Proof.
  induction a as [|x a IH]; intros [|y b] [|z c]; cbn; try congruence.
  destruct (Ascii.compare x y) eqn:E1; try discriminate; destruct (Ascii.compare y z) eqn:E2; try discriminate; intros H1 H2.
  - apply Ascii.compare_eq_iff in E1. apply Ascii.compare_eq_iff in E2. subst.
    replace (Ascii.compare z z) with Eq; [now apply (IH b c)|]. unfold Ascii.compare. symmetry. apply N.compare_refl.
  - apply Ascii.compare_eq_iff in E1. subst. now rewrite E2.
  - apply Ascii.compare_eq_iff in E2. subst. now rewrite E1.
  - now rewrite (ascii_lt_trans _ _ _ E1 E2).
Qed.
Lemma compare_refl : forall a, String.compare a a = Eq.
Proof. induction a as [|x a IH]; cbn; [reflexivity|]. unfold Ascii.compare. now rewrite N.compare_refl. Qed.
Lemma leb_lt : forall a b, a <> b -> String.leb a b = true -> String.compare a b = Lt.
Proof.
  intros a b N. unfold String.leb. destruct (String.compare a b) eqn:E; try congruence. intros _. apply String.compare_eq_iff in E. contradiction.
Qed.
Lemma leb_not : forall a b, String.leb a b = false -> String.compare b a = Lt.
Proof. intros a b. unfold String.leb. rewrite (String.compare_antisym b a). destruct (String.compare a b); cbn; congruence. Qed.

Lemma insert_perm : forall x l, Permutation (insert x l) (x :: l).
Proof.
  intros x l. induction l as [|y l IH]; cbn; [reflexivity|]. destruct (String.leb x y); [reflexivity|].
  rewrite IH. constructor.
Qed.
Lemma sorted_perm : forall l, Permutation (sorted l) l.
Proof. induction l as [|x l IH]; cbn; [reflexivity|]. now rewrite insert_perm, IH. Qed.
Lemma insert_increasing : forall x l, ~ In x l -> increasing l -> increasing (insert x l).
Proof.
  intros x l. induction l as [|y l IH]; intros N H; cbn; [repeat constructor|].
  inversion H as [|? ? H1 H2]; subst. destruct (String.leb x y) eqn:E.
  - constructor; [exact H|]. assert (Hxy : String.compare x y = Lt) by (apply leb_lt; [intros ->; apply N; now left|exact E]).
    constructor; [exact Hxy|]. eapply Forall_impl; [|exact H2]. intros z Hz. cbn in Hz. now apply lt_trans with y.
  - constructor; [apply IH; [intros X; apply N; now right|exact H1]|].
    apply Forall_forall. intros z Hz. apply (Permutation_in _ (insert_perm x l)) in Hz. destruct Hz as [<-|Hz]; [now apply leb_not|].
    now apply (proj1 (Forall_forall _ _) H2).
Qed.
Lemma sorted_increasing : forall l, NoDup l -> increasing (sorted l).
Proof.
  induction l as [|x l IH]; intros N; cbn; [constructor|]. inversion N; subst. apply insert_increasing; [|now apply IH].
  intros X. apply (Permutation_in _ (sorted_perm l)) in X. contradiction.
Qed.
Lemma increasing_head : forall x y l l', increasing (x :: l) -> increasing (y :: l') -> Permutation (x :: l) (y :: l') -> x = y.
Proof.
  intros x y l l' H H' P. inversion H as [|? ? _ F]; subst. inversion H' as [|? ? _ F']; subst.
  assert (X : In x (y :: l')) by (apply (Permutation_in _ P); now left).
  assert (Y : In y (x :: l)) by (apply (Permutation_in _ (Permutation_sym P)); now left).
  destruct X as [X|X]; [now symmetry|]. destruct Y as [Y|Y]; [exact Y|].
  apply (proj1 (Forall_forall _ _) F') in X. apply (proj1 (Forall_forall _ _) F) in Y. cbn in X, Y.
  rewrite String.compare_antisym, X in Y. discriminate.
Qed.
Lemma increasing_unique : forall l l', increasing l -> increasing l' -> Permutation l l' -> l = l'.
Proof.
  induction l as [|x l IH]; intros l' H H' P.
  - now apply Permutation_nil in P.
  - destruct l' as [|y l']; [now apply Permutation_sym, Permutation_nil in P|].
    assert (x = y) by (eapply increasing_head; eassumption). subst y. f_equal. apply IH; [now inversion H|now inversion H'|].
    now apply Permutation_cons_inv in P.
Qed.
(** without distinctness: sorting forgets the order all the same *)
Lemma insert_swap : forall x y l, insert x (insert y l) = insert y (insert x l).
Proof.
  assert (T : forall a b, String.leb a b = true -> String.leb b a = true -> a = b) by apply String.leb_antisym.
  assert (LT : forall a b c, String.leb a b = true -> String.leb b c = true -> String.leb a c = true).
  { intros a b c H1 H2. destruct (string_dec a b) as [->|N1]; [exact H2|]. destruct (string_dec b c) as [->|N2]; [exact H1|].
    unfold String.leb. now rewrite (lt_trans a b c) by (apply leb_lt; assumption). }
  assert (Tot : forall a b, String.leb a b = false -> String.leb b a = true).
  { intros a b H. destruct (String.leb_total a b); congruence. }
  intros x y l. induction l as [|z l IH]; cbn.
  - destruct (String.leb x y) eqn:E1, (String.leb y x) eqn:E2; cbn; rewrite ?E1, ?E2; try reflexivity.
    + now rewrite (T x y E1 E2).
    + rewrite (Tot _ _ E1) in E2. discriminate.
  - destruct (String.leb y z) eqn:E1, (String.leb x z) eqn:E2; cbn; rewrite ?E1, ?E2.
    + destruct (String.leb x y) eqn:E3, (String.leb y x) eqn:E4; cbn; rewrite ?E1, ?E2; try reflexivity.
      * now rewrite (T x y E3 E4).
      * rewrite (Tot _ _ E3) in E4. discriminate.
    + destruct (String.leb x y) eqn:E3; [rewrite (LT x y z E3 E1) in E2; discriminate|]. rewrite ?E2. reflexivity.
    + destruct (String.leb y x) eqn:E4; [rewrite (LT y x z E4 E2) in E1; discriminate|]. rewrite ?E1. reflexivity.
    + now rewrite IH.
Qed.
Lemma sorted_eq : forall l l', Permutation l l' -> sorted l = sorted l'.
Proof.
  intros l l' P. unfold sorted. induction P as [|x l l' P IH|x y l|l1 l2 l3 P1 IH1 P2 IH2]; cbn; [reflexivity|now rewrite IH|apply insert_swap|congruence].
Qed.

(** ** dictionaries *)
Lemma entry_some : forall d k v, dictionary d -> (entry d k = Some v <-> has d k v).
Proof.
  unfold has. induction d as [|[k' v'] d IH]; intros k v D; cbn; [split; [discriminate|intros []]|].
  inversion D as [|? ? N D']; subst. cbn in N. destruct (String.eqb_spec k' k) as [->|Ne].
  - split; [intros H; left; congruence|]. intros [H|H]; [congruence|]. exfalso. apply N. now apply (in_map fst) in H.
  - rewrite (IH k v D'). split; [now right|]. intros [H|H]; [congruence|exact H].
Qed.
Lemma entry_none : forall d k, entry d k = None <-> lacks d k.
Proof.
  unfold lacks. induction d as [|[k' v'] d IH]; intros k; cbn; [split; [intros _ v []|reflexivity]|].
  destruct (String.eqb_spec k' k) as [->|Ne].
  - split; [discriminate|]. intros H. exfalso. apply (H v'). now left.
  - rewrite IH. split; intros H v; [intros [X|X]; [congruence|now apply (H v)]|]. intros X. apply (H v). now right.
Qed.
Lemma entry_without : forall d k k', k <> k' -> entry (without d k) k' = entry d k'.
Proof.
  intros d k k' N. induction d as [|[a v] d IH]; cbn; [reflexivity|].
  destruct (String.eqb_spec a k) as [->|Na]; [destruct (String.eqb_spec k k'); [contradiction|exact IH]|].
  cbn. now rewrite IH.
Qed.

Section File.
Variable glob : string -> list string.
Variable numeral : string -> option Z.
Variable d : list (string * json).
Hypothesis D : dictionary d.

Lemma texts_spec : forall x l, texts x = Some l <-> x = map (fun a => (fst a, JStr (snd a))) l.
Proof.
  induction x as [|[k v] x IH]; intros l; cbn.
  - split; [intros H; injection H as <-; reflexivity|]. destruct l; [reflexivity|discriminate].
  - destruct v; try (split; [discriminate|destruct l; discriminate]).
    destruct (texts x) as [r|] eqn:E; cbn.
    + split; [intros H; injection H as <-; cbn; f_equal; now apply IH|].
      destruct l as [|[a b] l]; [discriminate|]. cbn. intros H. injection H as -> -> H. apply IH in H. congruence.
    + split; [discriminate|]. destruct l as [|[a b] l]; [discriminate|]. cbn. intros H. injection H as -> -> H. apply IH in H. discriminate.
Qed.
Lemma aliases_spec : forall l, read_aliases (entry d "parameter_aliases") = Some l <->
  (lacks d "parameter_aliases" /\ l = []) \/ has d "parameter_aliases" (JObj (map (fun a => (fst a, JStr (snd a))) l)).
Proof.
  intros l. destruct (entry d "parameter_aliases") as [v|] eqn:E.
  - assert (NL : ~ lacks d "parameter_aliases") by (rewrite <- entry_none, E; discriminate).
    rewrite <- (entry_some _ _ _ D), E. destruct v; cbn; try (split; [discriminate|intros [[X _]|X]; [contradiction|discriminate]]).
    rewrite texts_spec. split; [intros ->; now right|]. intros [[X _]|X]; [contradiction|congruence].
  - pose proof (proj1 (entry_none d _) E) as L. cbn. split; [intros H; injection H as <-; now left|].
    intros [[_ ->]|X]; [reflexivity|]. now apply L in X.
Qed.
Lemma unset_spec : forall k, unset d k <-> entry d k = None \/ entry d k = Some JNull.
Proof. intros k. unfold unset. now rewrite entry_none, (entry_some _ _ _ D). Qed.
Lemma integer_spec : forall v z, integer numeral v = Some z <-> stands_for numeral z v.
Proof.
  intros v z. split.
  - destruct v as [|b|z'|x|s|l|f]; cbn; try discriminate.
    + intros H. injection H as <-. destruct b; now constructor.
    + intros H. injection H as <-. constructor.
    + destruct x as [r| | |]; try discriminate. destruct (Req_EM_T r (IZR (Int_part r))) as [E|]; [|discriminate].
      intros H. injection H as <-. rewrite E at 2. constructor.
    + intros H. now constructor.
  - intros H. destruct H as [| | Hz | Hz |s H]; try subst z; cbn; try reflexivity; [|exact H].
    assert (E : Int_part (IZR z) = z).
    { unfold Int_part. rewrite <- (tech_up (IZR z) (z + 1)); [lia| |]; rewrite plus_IZR; lra. }
    rewrite E. destruct (Req_EM_T (IZR z) (IZR z)); [reflexivity|contradiction].
Qed.
Lemma max_samples_spec : forall n, read_max_samples numeral (entry d "max_samples") = Some n <->
  match n with
  | None => unset d "max_samples"
  | Some n => (0 < n)%nat /\ exists v, has d "max_samples" v /\ stands_for numeral (Z.of_nat n) v
  end.
Proof.
  intros n.
  assert (G : forall v, v <> JNull -> entry d "max_samples" = Some v ->
    (match integer numeral v with Some z => if (0 <? z)%Z then Some (Some (Z.to_nat z)) else None | None => None end = Some n <->
     match n with None => unset d "max_samples"
     | Some n => (0 < n)%nat /\ exists v, has d "max_samples" v /\ stands_for numeral (Z.of_nat n) v end)).
  { intros v Hv E. destruct n as [n|].
    - split.
      + destruct (integer numeral v) as [z|] eqn:I; [|discriminate]. destruct (Z.ltb_spec 0 z); [|discriminate]. intros X. injection X as <-.
        split; [lia|]. exists v. split; [now apply entry_some|]. rewrite Z2Nat.id by lia. now apply integer_spec.
      + intros (Hn & w & Hw & S). apply (entry_some _ _ _ D) in Hw. assert (w = v) by congruence. subst w.
        apply integer_spec in S. rewrite S. destruct (Z.ltb_spec 0 (Z.of_nat n)); [|lia]. now rewrite Nat2Z.id.
    - rewrite unset_spec, E. split; [|intros [X|X]; congruence].
      destruct (integer numeral v) as [z|]; [destruct (0 <? z)%Z|]; discriminate. }
  destruct (entry d "max_samples") as [v|] eqn:E.
  - destruct v; try (apply G; [discriminate|reflexivity]). cbn. destruct n as [n|].
    + split; [discriminate|]. intros (Hn & w & Hw & S). apply (entry_some _ _ _ D) in Hw. rewrite E in Hw. injection Hw as <-. inversion S.
    + rewrite unset_spec, E. split; [now right|reflexivity].
  - cbn. destruct n as [n|].
    + split; [discriminate|]. intros (Hn & w & Hw & S). apply (entry_some _ _ _ D) in Hw. congruence.
    + rewrite unset_spec, E. split; [now left|reflexivity].
Qed.
Lemma mass_spec : forall m, read_mass_prior (entry d "mass_prior") = Some m <->
  match m with None => unset d "mass_prior" | Some m => exists s, In (s, m) mass_names /\ has d "mass_prior" (JStr s) end.
Proof.
  intros m. destruct m as [m|].
  - split.
    + destruct (entry d "mass_prior") as [[]|] eqn:E; cbn; try discriminate.
      destruct (String.eqb_spec s "flat-detector-components") as [->|]; [|destruct (String.eqb_spec s "flat-detector-chirp-mass-ratio") as [->|]; [|destruct (String.eqb_spec s "flat-source-components") as [->|]; [|discriminate]]];
        intros X; injection X as <-; eexists; (split; [|apply (entry_some _ _ _ D), E]); cbn; tauto.
    + intros (s & Hs & H). apply (entry_some _ _ _ D) in H. rewrite H. cbn in Hs.
      destruct Hs as [X|[X|[X|[]]]]; injection X as <- <-; reflexivity.
  - rewrite unset_spec. destruct (entry d "mass_prior") as [[]|] eqn:E; cbn; try (split; [discriminate|intros [X|X]; discriminate]); try (split; [auto|reflexivity]).
    split; [|intros [X|X]; discriminate]. destruct (s =? _); [discriminate|]. destruct (s =? _); [discriminate|]. destruct (s =? _); discriminate.
Qed.
Lemma distance_spec : forall m, read_distance_prior (entry d "distance_prior") = Some m <->
  match m with None => unset d "distance_prior" | Some m => exists s, In (s, m) distance_names /\ has d "distance_prior" (JStr s) end.
Proof.
  intros m. destruct m as [m|].
  - split.
    + destruct (entry d "distance_prior") as [[]|] eqn:E; cbn; try discriminate.
      destruct (String.eqb_spec s "comoving") as [->|]; [|destruct (String.eqb_spec s "euclidean") as [->|]; [|discriminate]];
        intros X; injection X as <-; eexists; (split; [|apply (entry_some _ _ _ D), E]); cbn; tauto.
    + intros (s & Hs & H). apply (entry_some _ _ _ D) in H. rewrite H. cbn in Hs.
      destruct Hs as [X|[X|[]]]; injection X as <- <-; reflexivity.
  - rewrite unset_spec. destruct (entry d "distance_prior") as [[]|] eqn:E; cbn; try (split; [discriminate|intros [X|X]; discriminate]); try (split; [auto|reflexivity]).
    split; [|intros [X|X]; discriminate]. destruct (s =? _); [discriminate|]. destruct (s =? _); discriminate.
Qed.
Lemma spin_spec : forall b, read_spin_prior (entry d "spin_prior") = Some b <->
  if b then has d "spin_prior" (JStr "component") else unset d "spin_prior".
Proof.
  intros [|].
  - rewrite <- (entry_some _ _ _ D). destruct (entry d "spin_prior") as [[]|]; cbn; try (split; discriminate).
    destruct (String.eqb_spec s "component") as [->|]; [split; reflexivity|]. split; [discriminate|congruence].
  - rewrite unset_spec. destruct (entry d "spin_prior") as [[]|]; cbn; try (split; [discriminate|intros [X|X]; discriminate]); try (split; [auto|reflexivity]).
    destruct (s =? _); (split; [discriminate|intros [X|X]; discriminate]).
Qed.
Lemma construct_spec : forall l, construct numeral d = Some l <-> asks_for numeral d l.
Proof.
  intros l. unfold construct. split.
  - destruct (read_aliases _) as [a|] eqn:Ea; [|discriminate]. destruct (read_max_samples _ _) as [n|] eqn:En; [|discriminate].
    destruct (read_mass_prior _) as [m|] eqn:Em; [|discriminate]. destruct (read_spin_prior _) as [s|] eqn:Es; [|discriminate].
    destruct (read_distance_prior _) as [p|] eqn:Ep; [|discriminate]. intros H. injection H as <-.
    constructor; cbn [parameter_aliases max_samples mass_prior component_spin distance_prior];
      [now apply aliases_spec|now apply max_samples_spec|now apply mass_spec|now apply spin_spec|now apply distance_spec].
  - destruct l as [a n m s p]. intros [H1 H2 H3 H4 H5]. cbn [parameter_aliases max_samples mass_prior component_spin distance_prior] in *.
    apply aliases_spec in H1. apply max_samples_spec in H2. apply mass_spec in H3. apply spin_spec in H4. apply distance_spec in H5.
    now rewrite H1, H2, H3, H4, H5.
Qed.
Lemma construct_without : construct numeral (without d "regex") = construct numeral d.
Proof. unfold construct. now rewrite !entry_without by discriminate. Qed.
End File.

Lemma entry_app : forall a b k, entry (a ++ b) k = match entry a k with Some v => Some v | None => entry b k end.
Proof. induction a as [|[k' v'] a IH]; intros b k; cbn; [reflexivity|]. destruct (String.eqb k' k); [reflexivity|apply IH]. Qed.
Lemma construct_entries : forall numeral d d', (forall k, In k known_keys -> entry d k = entry d' k) -> construct numeral d = construct numeral d'.
Proof. intros numeral d d' H. unfold construct. rewrite !H by (cbn; tauto). reflexivity. Qed.
Lemma from_json_entries : forall glob numeral d d', (forall k, In k known_keys -> entry d k = entry d' k) ->
  from_json glob numeral (Some (JObj d)) = from_json glob numeral (Some (JObj d')).
Proof.
  intros glob numeral d d' H. unfold from_json. rewrite <- (H "regex") by (cbn; tauto).
  destruct (entry d "regex") as [[]|]; try reflexivity. destruct (sorted (glob s)) as [|f fs]; [reflexivity|].
  rewrite !entry_without by discriminate. rewrite <- (H "filenames") by (cbn; tauto).
  destruct (entry d "filenames"); [reflexivity|]. now rewrite !construct_without, (construct_entries numeral d d' H).
Qed.
