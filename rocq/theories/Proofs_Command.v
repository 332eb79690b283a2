(** Lemmas about command lines. *)
From Coq Require Import String Ascii List ZArith Arith Bool Permutation Lia.
From Verif Require Import Model_Command Spec_Command.
Import ListNotations.
Open Scope string_scope.

(** ** strings *)
Lemma append_assoc (a b c : string) : (a ++ b) ++ c = a ++ (b ++ c).
Proof. induction a as [|x a IH]; cbn; [reflexivity|f_equal; exact IH]. Qed.
Lemma prefix_app a b : prefix a (a ++ b) = true.
Proof. induction a as [|c a IH]; cbn; [destruct b; reflexivity|]. destruct (ascii_dec c c); [exact IH|congruence]. Qed.
Lemma prefix_split a : forall s, prefix a s = true -> exists b, s = a ++ b.
Proof.
  induction a as [|c a IH]; intros s H; [exists s; reflexivity|].
  destruct s as [|d s]; cbn in H; [discriminate|].
  destruct (ascii_dec c d) as [<-|]; [|discriminate].
  destruct (IH s H) as [b ->]. exists b. reflexivity.
Qed.
Lemma prefix_refl a : prefix a a = true.
Proof. induction a as [|c a IH]; cbn; [reflexivity|]. destruct (ascii_dec c c); [exact IH|congruence]. Qed.
Lemma prefix_trans a b c : prefix a b = true -> prefix b c = true -> prefix a c = true.
Proof.
  intros H1 H2. destruct (prefix_split _ _ H1) as [x ->]. destruct (prefix_split _ _ H2) as [y ->].
  rewrite append_assoc. apply prefix_app.
Qed.
Lemma cut_some s : forall a b, cut s = Some (a, b) -> s = a ++ "=" ++ b /\ cut a = None.
Proof.
  induction s as [|c s IH]; intros a b H; cbn in H; [discriminate|].
  destruct (Ascii.eqb_spec c "=") as [->|Hc].
  - injection H as <- <-. split; reflexivity.
  - destruct (cut s) as [[a' b']|] eqn:E; cbn in H; [|discriminate].
    injection H as <- <-. destruct (IH a' b' eq_refl) as [-> Ha]. split; [reflexivity|].
    cbn. destruct (Ascii.eqb_spec c "="); [congruence|]. rewrite Ha. reflexivity.
Qed.
Lemma cut_app a b : cut a = None -> cut (a ++ "=" ++ b) = Some (a, b).
Proof.
  induction a as [|c a IH]; intros H; [reflexivity|].
  cbn in *. destruct (Ascii.eqb c "="); [discriminate|].
  destruct (cut a) eqn:E; [discriminate|]. cbn in IH. rewrite IH by reflexivity. reflexivity.
Qed.
Lemma cut_prefix a o : prefix a o = true -> cut o = None -> cut a = None.
Proof.
  intros H. destruct (prefix_split _ _ H) as [b ->]. clear H.
  induction a as [|c a IH]; intros H; [reflexivity|].
  cbn in *. destruct (Ascii.eqb c "="); [discriminate|].
  destruct (cut (a ++ b)); [discriminate|]. rewrite IH by reflexivity. reflexivity.
Qed.
Lemma cut_none_app a b : cut (a ++ "=" ++ b) <> None.
Proof.
  induction a as [|c a IH]; [discriminate|]. change (String c a ++ "=" ++ b) with (String c (a ++ "=" ++ b)).
  cbn [cut]. destruct (Ascii.eqb c "="); [discriminate|].
  destruct (cut (a ++ "=" ++ b)); [discriminate|]. exfalso. apply IH. reflexivity.
Qed.
Lemma dashes_nonempty s : prefix "--" s = true -> String.eqb s "" = false /\ prefix "-" s = true /\ String.eqb s "-" = false.
Proof.
  intros H. destruct (prefix_split _ _ H) as [b ->]. cbn [append]. repeat split.
Qed.

(** ** recognising the words *)
Definition names_ok (names : list string) : Prop :=
  NoDup ("--help" :: names) /\ Forall (fun n => prefix "--" n = true /\ n <> "--" /\ cut n = None) names.
Section Words.
Variable os : list opt.
Let names := map o_name os.
Let p := help_opt :: os.
Hypothesis Hok : names_ok names.

Lemma p_names : map o_name p = "--help" :: names.
Proof. reflexivity. Qed.
Lemma p_ok : NoDup (map o_name p) /\ Forall (fun n => prefix "--" n = true /\ n <> "--" /\ cut n = None) (map o_name p).
Proof.
  destruct Hok as [H1 H2]. split; [exact H1|]. constructor; [|exact H2]. repeat split; discriminate.
Qed.
Lemma name_inj o o' : In o p -> In o' p -> o_name o = o_name o' -> o = o'.
Proof.
  destruct p_ok as [H _]. revert H. generalize p as q. induction q as [|x q IH]; intros Hnd; [intros []|].
  cbn in Hnd. inversion Hnd as [|? ? Hn Hnd']; subst.
  intros [<-|Ho] [<-|Ho'] E; auto.
  - exfalso. apply Hn. rewrite E. apply in_map. exact Ho'.
  - exfalso. apply Hn. rewrite <- E. apply in_map. exact Ho.
Qed.
Lemma exact_in s o : exact p s = Some o -> In o p /\ o_name o = s.
Proof.
  intros H. apply find_some in H. destruct H as [H1 H2]. split; [exact H1|]. apply String.eqb_eq. exact H2.
Qed.
Lemma exact_name o : In o p -> exact p (o_name o) = Some o.
Proof.
  intros H. destruct (exact p (o_name o)) as [o'|] eqn:E.
  - destruct (exact_in _ _ E) as [H1 H2]. f_equal. apply name_inj; assumption.
  - exfalso. unfold exact in E. apply (find_none _ _ E) in H. rewrite String.eqb_refl in H. discriminate.
Qed.
Lemma name_facts o : In o p -> prefix "--" (o_name o) = true /\ o_name o <> "--" /\ cut (o_name o) = None.
Proof.
  intros H. destruct p_ok as [_ H2]. rewrite Forall_forall in H2. apply H2. apply in_map. exact H.
Qed.
Lemma filter_one (f : opt -> bool) o : In o p -> f o = true -> (forall o', In o' p -> f o' = true -> o_name o' = o_name o) ->
  filter f p = [o].
Proof.
  intros Ho Hf Hu.
  assert (Hall : forall o', In o' p -> f o' = true -> o' = o). { intros o' H1 H2. apply name_inj; auto. }
  assert (Hnd : NoDup p). { apply (NoDup_map_inv o_name). apply p_ok. }
  clear Hu. revert Ho Hall Hnd. generalize p as q. induction q as [|x q IH]; intros Ho Hall Hnd; [destruct Ho|].
  inversion Hnd as [|? ? Hn Hnd']; subst. cbn [filter].
  destruct Ho as [->|Ho].
  - rewrite Hf. f_equal.
    destruct (filter f q) as [|y l] eqn:E; [reflexivity|exfalso].
    assert (Hy : In y (filter f q)) by (rewrite E; left; reflexivity).
    apply filter_In in Hy. destruct Hy as [Hy1 Hy2]. rewrite (Hall y (or_intror Hy1) Hy2) in Hy1. exact (Hn Hy1).
  - destruct (f x) eqn:E.
    + exfalso. rewrite (Hall x (or_introl eq_refl) E) in Hn. exact (Hn Ho).
    + apply IH; [exact Ho| |exact Hnd']. intros o' H1. apply Hall. right. exact H1.
Qed.
Lemma in_names_opt o : In o names -> exists x, In x os /\ o_name x = o.
Proof. intros H. apply in_map_iff in H. destruct H as (x & H1 & H2). exists x. auto. Qed.
Lemma p_name_in x : In x p -> In (o_name x) ("--help" :: names).
Proof. intros H. change ("--help" :: names) with (map o_name p). apply in_map. exact H. Qed.
Lemma spells_no_cut w o : spells names w o -> cut w = None /\ prefix "--" w = true /\ w <> "--".
Proof.
  intros [Ho H]. destruct (in_names_opt _ Ho) as (x & Hx & <-).
  destruct (name_facts x (or_intror Hx)) as (F1 & F2 & F3).
  destruct H as [->|(H1 & H2 & H3 & _)]; [auto|]. repeat split; [|exact H2|exact H1].
  exact (cut_prefix _ _ H3 F3).
Qed.
Lemma spells_exact w x o' : In x os -> spells names w (o_name x) -> exact p w = Some o' -> o' = x.
Proof.
  intros Hx [_ H] E. destruct (exact_in _ _ E) as [Hi Hn]. apply name_inj; [exact Hi|right; exact Hx|].
  destruct H as [->|(_ & _ & _ & Hu)]; [exact Hn|].
  apply Hu; [apply p_name_in; exact Hi|]. rewrite Hn. apply prefix_refl.
Qed.
Lemma spells_beginning w x : In x os -> spells names w (o_name x) -> exact p w = None -> beginning p w = [x].
Proof.
  intros Hx [_ H] E. destruct H as [->|(_ & _ & H3 & Hu)].
  - rewrite exact_name in E by (right; exact Hx). discriminate.
  - apply filter_one; [right; exact Hx|exact H3|]. intros o' Ho' Hp. apply Hu; [apply p_name_in; exact Ho'|exact Hp].
Qed.
Lemma classify_spelled w x : In x os -> spells names w (o_name x) -> classify p w = TUse x None.
Proof.
  intros Hx H. destruct (spells_no_cut _ _ H) as (Hc & Hd & Hdd).
  destruct (dashes_nonempty _ Hd) as (E1 & E2 & E3). unfold classify. rewrite E1, E2. cbn [negb].
  destruct (exact p w) as [o'|] eqn:E.
  - rewrite (spells_exact _ _ _ Hx H E). reflexivity.
  - rewrite E3. destruct (String.eqb_spec w "--") as [->|_]; [congruence|]. rewrite Hd, Hc.
    rewrite (spells_beginning _ _ Hx H E). reflexivity.
Qed.
Lemma classify_inline w v x : In x os -> spells names w (o_name x) -> classify p (w ++ "=" ++ v) = TUse x (Some v).
Proof.
  intros Hx H. destruct (spells_no_cut _ _ H) as (Hc & Hd & Hdd).
  assert (Hd' : prefix "--" (w ++ "=" ++ v) = true). { apply (prefix_trans _ w); [exact Hd|apply prefix_app]. }
  destruct (dashes_nonempty _ Hd') as (E1 & E2 & E3). unfold classify. rewrite E1, E2. cbn [negb].
  destruct (exact p (w ++ "=" ++ v)) as [o'|] eqn:E.
  { exfalso. destruct (exact_in _ _ E) as [Hi Hn]. destruct (name_facts _ Hi) as (_ & _ & F). rewrite Hn in F.
    exact (cut_none_app _ _ F). }
  rewrite E3. destruct (String.eqb_spec (w ++ "=" ++ v) "--") as [E4|_].
  { exfalso. apply (cut_none_app w v). rewrite E4. reflexivity. }
  rewrite Hd', (cut_app _ _ Hc).
  destruct (exact p w) as [o'|] eqn:E'.
  - rewrite (spells_exact _ _ _ Hx H E'). reflexivity.
  - rewrite (spells_beginning _ _ Hx H E'). reflexivity.
Qed.
Lemma beginning_in s o : In o (beginning p s) <-> In o p /\ prefix s (o_name o) = true.
Proof. apply filter_In. Qed.
Lemma beginning_spells s x l : prefix "--" s = true -> s <> "--" -> beginning p s = x :: l -> l = [] -> In x os -> spells names s (o_name x).
Proof.
  intros H1 H2 H3 -> Hx. split; [apply in_map; exact Hx|]. right. repeat split; auto.
  - apply (beginning_in s x). rewrite H3. left. reflexivity.
  - intros o' Ho' Hp. change ("--help" :: names) with (map o_name p) in Ho'.
    apply in_map_iff in Ho'. destruct Ho' as (y & <- & Hy).
    assert (Hy' : In y (beginning p s)) by (apply beginning_in; auto). rewrite H3 in Hy'.
    destruct Hy' as [<-|[]]. reflexivity.
Qed.
Lemma exact_spells s x : exact p s = Some x -> In x os -> spells names s (o_name x).
Proof. intros E Hx. destruct (exact_in _ _ E) as [_ Hn]. split; [apply in_map; exact Hx|]. left. congruence. Qed.
Lemma in_p x : In x p -> x = help_opt \/ In x os.
Proof. intros [H|H]; [left; auto|right; exact H]. Qed.
Lemma beginning_dashes : forall x, beginning p "--" = [x] -> x = help_opt.
Proof.
  intros x H. assert (Hh : In help_opt (beginning p "--")) by (apply beginning_in; split; [left; reflexivity|reflexivity]).
  rewrite H in Hh. destruct Hh as [<-|[]]. reflexivity.
Qed.
(** whatever the parser takes for an option is a spelling of one *)
Lemma classify_use s x inline : classify p s = TUse x inline ->
  x = help_opt \/
  In x os /\ match inline with
             | None => spells names s (o_name x)
             | Some v => exists w, s = w ++ "=" ++ v /\ spells names w (o_name x)
             end.
Proof.
  unfold classify. destruct (String.eqb s ""); [discriminate|].
  destruct (negb (prefix "-" s)); [discriminate|].
  destruct (exact p s) as [o|] eqn:E.
  { intros H. injection H as <- <-. destruct (in_p _ (proj1 (exact_in _ _ E))) as [->|Hx]; [left; reflexivity|right].
    split; [exact Hx|]. apply exact_spells; assumption. }
  destruct (String.eqb s "-"); [discriminate|].
  destruct (String.eqb_spec s "--") as [|Hdd]; [discriminate|].
  destruct (prefix "--" s) eqn:Hd.
  - destruct (cut s) as [[a b]|] eqn:C.
    + destruct (cut_some _ _ _ C) as [-> Ca].
      destruct (exact p a) as [o|] eqn:E'.
      * intros H. injection H as <- <-. destruct (in_p _ (proj1 (exact_in _ _ E'))) as [->|Hx]; [left; reflexivity|right].
        split; [exact Hx|]. exists a. split; [reflexivity|]. apply exact_spells; assumption.
      * destruct (beginning p a) as [|o [|? ?]] eqn:B; try discriminate.
        { destruct (has_space (a ++ "=" ++ b)); discriminate. }
        intros H. injection H as <- <-.
        destruct (in_p o) as [->|Hx]; [apply (beginning_in a); rewrite B; left; reflexivity|left; reflexivity|right].
        split; [exact Hx|]. exists a. split; [reflexivity|].
        assert (Ha : prefix "--" a = true).
        { destruct (prefix_split _ _ Hd) as [t Et].
          destruct a as [|c [|d a]]; cbn [append] in Et; [discriminate Et|discriminate Et|].
          injection Et as -> -> _. exact (prefix_app "--" a). }
        destruct (String.eqb_spec a "--") as [->|Hne].
        { exfalso. rewrite (beginning_dashes _ B) in Hx. destruct Hok as [Hnd _]. inversion Hnd as [|? ? Hn _]; subst.
          apply Hn. change "--help" with (o_name help_opt). apply in_map. exact Hx. }
        apply (beginning_spells _ _ _ Ha Hne B eq_refl Hx).
    + destruct (beginning p s) as [|o [|? ?]] eqn:B; try discriminate.
      { destruct (has_space s); discriminate. }
      intros H. injection H as <- <-.
      destruct (in_p o) as [->|Hx]; [apply (beginning_in s); rewrite B; left; reflexivity|left; reflexivity|right].
      split; [exact Hx|]. apply (beginning_spells _ _ _ Hd Hdd B eq_refl Hx).
  - destruct (prefix "-h" s); [discriminate|]. destruct (negative_number s); [discriminate|].
    destruct (has_space s); discriminate.
Qed.
Lemma negative_not_dashes s : negative_number s = true -> prefix "--" s = false.
Proof.
  intros H. destruct (prefix "--" s) eqn:E; [|reflexivity].
  destruct (prefix_split _ _ E) as [t ->]. cbn in H. discriminate H.
Qed.
Lemma option_like_beginning s : prefix "--" s = true ->
  (option_like names s <-> match cut s with Some (a, _) => beginning p a <> [] | None => beginning p s <> [] end).
Proof.
  intros Hd. split.
  - intros (_ & a & o & Ho & Hp & Hs). change ("--help" :: names) with (map o_name p) in Ho.
    apply in_map_iff in Ho. destruct Ho as (x & <- & Hx).
    assert (Ca : cut a = None) by (apply (cut_prefix _ _ Hp); apply name_facts; exact Hx).
    assert (Hb : beginning p a <> []).
    { intros E. assert (H : In x (beginning p a)) by (apply beginning_in; auto). rewrite E in H. destruct H. }
    destruct Hs as [->|[b ->]]; [rewrite Ca; exact Hb|rewrite (cut_app _ _ Ca); exact Hb].
  - intros H. split; [exact Hd|].
    assert (Hx : forall a, beginning p a <> [] -> exists o, In o ("--help" :: names) /\ prefix a o = true).
    { intros a Ha. destruct (beginning p a) as [|x l] eqn:E; [congruence|].
      assert (Hx : In x (beginning p a)) by (rewrite E; left; reflexivity). apply beginning_in in Hx.
      exists (o_name x). split; [apply p_name_in; tauto|tauto]. }
    destruct (cut s) as [[a b]|] eqn:C.
    + destruct (Hx _ H) as (o & Ho & Hp). exists a, o. repeat split; auto. right. exists b. apply (cut_some _ _ _ C).
    + destruct (Hx _ H) as (o & Ho & Hp). exists s, o. auto.
Qed.
Lemma dash_prefix s : prefix "--" s = true -> prefix "-h" s = false.
Proof.
  intros H. destruct (prefix_split _ _ H) as [b ->]. reflexivity.
Qed.
(** the parser takes exactly the plain words for values *)
Lemma classify_arg s : classify p s = TArg <-> plain names s.
Proof.
  unfold classify, plain.
  destruct (String.eqb_spec s "") as [->|Hne].
  { split; [left; reflexivity|reflexivity]. }
  destruct (prefix "-" s) eqn:Hd; cbn [negb].
  2:{ split; [left; reflexivity|reflexivity]. }
  destruct (exact p s) as [o|] eqn:E.
  { split; [discriminate|]. intros H. exfalso. destruct (exact_in _ _ E) as [Hi Hn].
    destruct (name_facts _ Hi) as (F1 & F2 & F3). rewrite Hn in *.
    destruct H as [H|[->|(_ & H & _)]]; [congruence|discriminate|].
    apply H. apply option_like_beginning; [exact F1|]. rewrite F3. intros E0.
    assert (H0 : In o (beginning p s)) by (apply beginning_in; rewrite Hn; split; [exact Hi|apply prefix_refl]).
    rewrite E0 in H0. destruct H0. }
  destruct (String.eqb_spec s "-") as [->|H1].
  { split; [right; left; reflexivity|reflexivity]. }
  destruct (String.eqb_spec s "--") as [->|H2].
  { split; [discriminate|]. intros [H|[H|(_ & _ & H & _)]]; congruence. }
  destruct (prefix "--" s) eqn:Hdd.
  - pose proof (option_like_beginning _ Hdd) as Ho. pose proof (dash_prefix _ Hdd) as Hh.
    assert (Hneg : negative_number s = false).
    { destruct (negative_number s) eqn:N; [|reflexivity]. apply negative_not_dashes in N. congruence. }
    destruct (cut s) as [[a b]|] eqn:C.
    + destruct (exact p a) as [o|] eqn:E'.
      { split; [discriminate|]. intros [H|[H|(_ & H & _)]]; try congruence. exfalso. apply H, Ho. intros E0.
        destruct (exact_in _ _ E') as [Hi Hn].
        assert (H0 : In o (beginning p a)) by (apply beginning_in; rewrite Hn; split; [exact Hi|apply prefix_refl]).
        rewrite E0 in H0. destruct H0. }
      destruct (beginning p a) as [|o l] eqn:B.
      * destruct (has_space s) eqn:Sp.
        { split; [intros _|reflexivity]. right. right. repeat split; auto. intros H. apply Ho in H. congruence. }
        { split; [discriminate|]. intros [H|[H|([H|H] & _)]]; congruence. }
      * split; [destruct l; discriminate|]. intros [H|[H|(_ & H & _)]]; try congruence. exfalso. apply H, Ho. discriminate.
    + destruct (beginning p s) as [|o l] eqn:B.
      * destruct (has_space s) eqn:Sp.
        { split; [intros _|reflexivity]. right. right. repeat split; auto. intros H. apply Ho in H. congruence. }
        { split; [discriminate|]. intros [H|[H|([H|H] & _)]]; congruence. }
      * split; [destruct l; discriminate|]. intros [H|[H|(_ & H & _)]]; try congruence. exfalso. apply H, Ho. discriminate.
  - destruct (prefix "-h" s) eqn:Hh.
    { split; [discriminate|]. intros [H|[H|(_ & _ & _ & H)]]; congruence. }
    assert (Hnl : ~ option_like names s). { intros (H & _). congruence. }
    destruct (negative_number s) eqn:N.
    { split; [intros _|reflexivity]. right. right. repeat split; auto. }
    destruct (has_space s) eqn:Sp.
    { split; [intros _|reflexivity]. right. right. repeat split; auto. }
    split; [discriminate|]. intros [H|[H|([H|H] & _)]]; congruence.
Qed.
End Words.

(** ** reading the uses back *)
Definition kind_of (k : reading) : okind :=
  match k with Switch => OFlag | Integer => OInt | Number => OFloat | Text => OStr | Texts => OAppend end.
Definition matches (r : row) (o : opt) : Prop :=
  r_opt r = o_name o /\ kind_of (r_reading r) = o_kind o /\ r_omitted r = o_default o /\ r_needed r = o_required o.
Section Uses.
Variable int_of : string -> option Z.
Variable float_ok : string -> bool.
Variable os : list opt.
Variable rs : list row.
Hypothesis Hok : names_ok (map o_name os).
Hypothesis Hrs : Forall2 matches rs os.
Let p := help_opt :: os.
Let consume := consume int_of float_ok p.
Let take := take int_of float_ok p.
Let start := start int_of float_ok p.

Lemma rs_names : map r_opt rs = map o_name os.
Proof.
  pose proof Hrs as F. clear -F. induction F as [|r o rs' os' Hm _ IH]; [reflexivity|]. cbn [map]. destruct Hm as [H _].
  rewrite H, IH. reflexivity.
Qed.
Lemma row_opt r : In r rs -> exists o, In o os /\ matches r o.
Proof.
  pose proof Hrs as F. clear -F. induction F as [|r' o rs' os' H _ IH]; [intros []|].
  intros [->|Hi]; [exists o; split; [left; reflexivity|exact H]|].
  destruct (IH Hi) as (o' & H1 & H2). exists o'. split; [right; exact H1|exact H2].
Qed.
Lemma opt_row o : In o os -> exists r, In r rs /\ matches r o.
Proof.
  pose proof Hrs as F. clear -F. induction F as [|r o' rs' os' H _ IH]; [intros []|].
  intros [->|Hi]; [exists r; split; [left; reflexivity|exact H]|].
  destruct (IH Hi) as (r' & H1 & H2). exists r'. split; [right; exact H1|exact H2].
Qed.
(** the action of a use *)
Definition act (u : use) (st : pstate) : option pstate :=
  match exact p (fst u) with Some o => take o (snd u) st | None => None end.
Fixpoint acts (us : list use) (st : pstate) : option pstate :=
  match us with
  | [] => Some st
  | u :: us => match act u st with Some st => acts us st | None => None end
  end.
Lemma act_opt o vs st : In o os -> act (o_name o, vs) st = take o vs st.
Proof. intros H. unfold act. cbn [fst snd]. unfold p. rewrite (exact_name os Hok) by (right; exact H). reflexivity. Qed.

Lemma first_word u words r : In r rs -> fst u = r_opt r -> piece (map r_opt rs) (r_reading r) u words ->
  exists w t o inline, words = w :: t /\ classify p w = TUse o inline /\ In o os /\ matches r o.
Proof.
  intros Hr Hu Hp. destruct (row_opt r Hr) as (o & Ho & Hm). rewrite rs_names in Hp.
  assert (En : r_opt r = o_name o) by apply Hm.
  inversion Hp; subst; cbn [fst] in Hu; subst.
  - exists w, [], o, None. repeat split; try apply Hm; try exact Ho. apply classify_spelled; [exact Hok|exact Ho|congruence].
  - exists (w ++ "=" ++ v), [], o, (Some v). repeat split; try apply Hm; try exact Ho. apply classify_inline; [exact Hok|exact Ho|congruence].
  - exists w, [v], o, None. repeat split; try apply Hm; try exact Ho. apply classify_spelled; [exact Hok|exact Ho|congruence].
  - exists w, vs, o, None. repeat split; try apply Hm; try exact Ho. apply classify_spelled; [exact Hok|exact Ho|congruence].
Qed.
Lemma flush us argv : written rs us argv -> forall o vs st,
  consume argv (More o vs) st = match take o vs st with Some st => consume argv Idle st | None => None end.
Proof.
  intros H o vs st. destruct H as [|r u us words argv Hr Hu Hp Hw].
  - cbn. fold take. destruct (take o vs st); reflexivity.
  - destruct (first_word u words r Hr Hu Hp) as (w & t & o' & inline & -> & Hc & _).
    unfold consume. cbn [app Model_Command.consume]. rewrite Hc. fold take. destruct (take o vs st); reflexivity.
Qed.
Lemma plain_words vs : Forall (plain (map o_name os)) vs -> forall o acc argv st,
  consume (vs ++ argv)%list (More o acc) st = consume argv (More o (acc ++ vs)%list) st.
Proof.
  induction 1 as [|v vs Hv _ IH]; intros o acc argv st; [rewrite app_nil_r; reflexivity|].
  unfold consume. cbn [app Model_Command.consume]. unfold p at 1. rewrite (proj2 (classify_arg os Hok v) Hv).
  fold consume. specialize (IH o (acc ++ [v])%list argv st). rewrite <- app_assoc in IH. exact IH.
Qed.
Lemma consume_piece u words r : In r rs -> fst u = r_opt r -> piece (map r_opt rs) (r_reading r) u words ->
  forall us argv st, written rs us argv ->
  consume (words ++ argv)%list Idle st = match act u st with Some st => consume argv Idle st | None => None end.
Proof.
  intros Hr Hu Hp us argv st Hw. destruct (row_opt r Hr) as (o & Ho & Hm).
  assert (En : r_opt r = o_name o) by apply Hm. assert (Ek : kind_of (r_reading r) = o_kind o) by apply Hm.
  rewrite rs_names in Hp. destruct u as [n vs]. cbn [fst] in Hu. subst n. rewrite En in Hp |- *.
  rewrite (act_opt o vs st Ho).
  remember (r_reading r) as k eqn:Er in Hp.
  inversion Hp as [o' w Hs|k' o' w v Hk Hs|k' o' w v Hk Hs Hv|o' w vs' Hne Hs Hv]; subst o' words; try subst k'; try subst vs; try subst vs'; try subst k;
    try match goal with E : Switch = r_reading r |- _ => rewrite <- E in Ek | E : Texts = r_reading r |- _ => rewrite <- E in Ek end.
  - unfold consume. cbn [app Model_Command.consume]. unfold p at 1. rewrite (classify_spelled os Hok w o Ho) by assumption.
    cbn in Ek. unfold Model_Command.start. rewrite <- Ek. fold take.
    destruct (take o [] st); reflexivity.
  - unfold consume. cbn [app Model_Command.consume]. unfold p at 1. rewrite (classify_inline os Hok w v o Ho) by assumption.
    unfold Model_Command.start. fold take. rewrite <- Ek.
    destruct (r_reading r); cbn [kind_of]; try congruence; destruct (take o [v] st); reflexivity.
  - unfold consume. cbn [app Model_Command.consume]. unfold p at 1. rewrite (classify_spelled os Hok w o Ho) by assumption.
    unfold Model_Command.start. fold take. rewrite <- Ek.
    assert (Hc : classify p v = TArg) by (apply (classify_arg os Hok); assumption).
    destruct Hk as [E|[E|E]]; rewrite E; cbn [kind_of]; rewrite Hc; reflexivity.
  - unfold consume. cbn [app Model_Command.consume]. unfold p at 1. rewrite (classify_spelled os Hok w o Ho) by assumption.
    cbn in Ek. unfold Model_Command.start. rewrite <- Ek. fold consume.
    rewrite (plain_words vs') by assumption. cbn [app]. apply (flush us). exact Hw.
Qed.
Lemma consume_written us argv : written rs us argv -> forall st, consume argv Idle st = acts us st.
Proof.
  induction 1 as [|r u us words argv Hr Hu Hp Hw IH]; intros st; [reflexivity|].
  rewrite (consume_piece u words r Hr Hu Hp us argv st Hw). cbn [acts].
  destruct (act u st); [apply IH|reflexivity].
Qed.
Lemma help_start inline st : start help_opt inline st = None.
Proof. reflexivity. Qed.
(** what the parser accepts was written as uses *)
Definition continues (m : mode) (argv : list string) : Prop :=
  match m with
  | Idle => exists us, written rs us argv
  | Want o => exists v rest us, argv = v :: rest /\ plain (map r_opt rs) v /\ written rs us rest
  | More o acc => exists vs rest us, argv = (vs ++ rest)%list /\ Forall (plain (map r_opt rs)) vs /\
                                     (acc ++ vs)%list <> [] /\ written rs us rest
  end.
Definition mode_ok (m : mode) : Prop :=
  match m with
  | Idle => True
  | Want o => In o os /\ (o_kind o = OInt \/ o_kind o = OFloat \/ o_kind o = OStr)
  | More o _ => In o os /\ o_kind o = OAppend
  end.
Lemma take_append_nonempty o vs st st' : o_kind o = OAppend -> take o vs st = Some st' -> vs <> [].
Proof.
  intros Hk H ->. unfold take, Model_Command.take in H. destruct st as [ns seen].
  destruct (conflicts p o seen); [discriminate|]. rewrite Hk in H. discriminate.
Qed.
Lemma consume_use w o inline argv st :
  (forall m st, mode_ok m -> consume argv m st <> None -> continues m argv) ->
  classify p w = TUse o inline ->
  match start o inline st with Some (m, st) => consume argv m st | None => None end <> None ->
  exists us, written rs us (w :: argv).
Proof.
  intros IH Hc H. destruct (start o inline st) as [[m st1]|] eqn:Es; [|congruence].
  destruct (classify_use os Hok w o inline Hc) as [->|[Ho Hs]].
  { rewrite help_start in Es. discriminate. }
  destruct (opt_row o Ho) as (r & Hr & Hm). assert (En : r_opt r = o_name o) by apply Hm.
  assert (Ek : kind_of (r_reading r) = o_kind o) by apply Hm.
  unfold start, Model_Command.start in Es. rewrite <- Ek in Es. rewrite <- rs_names in Hs. rewrite <- En in Hs.
  destruct inline as [v|].
  - destruct Hs as (w' & -> & Hs).
    assert (Hm' : m = Idle /\ r_reading r <> Switch).
    { destruct (r_reading r); cbn in Es; try discriminate;
        destruct (Model_Command.take int_of float_ok p o [v] st); try discriminate;
        injection Es as <- <-; split; congruence. }
    destruct Hm' as [-> Hns]. destruct (IH Idle st1 I H) as [us Hw].
    exists ((r_opt r, [v]) :: us). change ((w' ++ "=" ++ v) :: argv) with (([(w' ++ "=" ++ v)%string] ++ argv)%list).
    apply (written_cons rs r); [exact Hr|reflexivity| |exact Hw]. apply piece_inline; assumption.
  - destruct (r_reading r) eqn:Er; cbn [kind_of] in Es, Ek.
    + destruct (Model_Command.take int_of float_ok p o [] st); [|discriminate]. injection Es as <- <-.
      destruct (IH Idle _ I H) as [us Hw]. exists ((r_opt r, []) :: us).
      change (w :: argv) with ([w] ++ argv)%list. apply (written_cons rs r); [exact Hr|reflexivity| |exact Hw].
      rewrite Er. apply piece_switch. exact Hs.
    + injection Es as <- <-.
      destruct (IH (Want o) st (conj Ho (or_introl (eq_sym Ek))) H) as (v & rest & us & -> & Hv & Hw).
      exists ((r_opt r, [v]) :: us). change (w :: v :: rest) with ([w; v] ++ rest)%list.
      apply (written_cons rs r); [exact Hr|reflexivity| |exact Hw]. rewrite Er. apply piece_next; auto.
    + injection Es as <- <-.
      destruct (IH (Want o) st (conj Ho (or_intror (or_introl (eq_sym Ek)))) H) as (v & rest & us & -> & Hv & Hw).
      exists ((r_opt r, [v]) :: us). change (w :: v :: rest) with ([w; v] ++ rest)%list.
      apply (written_cons rs r); [exact Hr|reflexivity| |exact Hw]. rewrite Er. apply piece_next; auto.
    + injection Es as <- <-.
      destruct (IH (Want o) st (conj Ho (or_intror (or_intror (eq_sym Ek)))) H) as (v & rest & us & -> & Hv & Hw).
      exists ((r_opt r, [v]) :: us). change (w :: v :: rest) with ([w; v] ++ rest)%list.
      apply (written_cons rs r); [exact Hr|reflexivity| |exact Hw]. rewrite Er. apply piece_next; auto.
    + injection Es as <- <-.
      destruct (IH (More o []) st (conj Ho (eq_sym Ek)) H) as (vs & rest & us & -> & Hv & Hne & Hw).
      exists ((r_opt r, vs) :: us). change (w :: vs ++ rest)%list with ((w :: vs) ++ rest)%list.
      apply (written_cons rs r); [exact Hr|reflexivity| |exact Hw]. rewrite Er. apply piece_texts; auto.
Qed.
Lemma consume_continues argv : forall m st, mode_ok m -> consume argv m st <> None -> continues m argv.
Proof.
  induction argv as [|w argv IH]; intros m st Hm H.
  - destruct m as [|o|o acc]; cbn in H |- *.
    + exists []. constructor.
    + congruence.
    + exists [], [], []. repeat split; [constructor| |constructor]. rewrite app_nil_r.
      fold take in H. destruct (take o acc st) as [st'|] eqn:E; [|congruence].
      apply (take_append_nonempty o acc st st'); [apply Hm|exact E].
  - unfold consume in H. cbn [Model_Command.consume] in H. fold consume take start in H.
    destruct (classify p w) as [|o' inline|] eqn:Hc.
    + assert (Hpl : plain (map r_opt rs) w) by (rewrite rs_names; apply (classify_arg os Hok); exact Hc).
      destruct m as [|o|o acc]; [congruence| |].
      * destruct (take o [w] st) as [st'|]; [|congruence].
        destruct (IH Idle st' I H) as [us Hw]. exists w, argv, us. auto.
      * destruct (IH (More o (acc ++ [w])%list) st Hm H) as (vs & rest & us & -> & Hv & _ & Hw).
        exists (w :: vs), rest, us. repeat split; [constructor; assumption| |exact Hw].
        destruct acc; discriminate.
    + destruct m as [|o|o acc]; [|congruence|].
      * apply (consume_use w o' inline argv st IH Hc H).
      * destruct (take o acc st) as [st'|] eqn:E; [|congruence].
        destruct (consume_use w o' inline argv st' IH Hc H) as [us Hw].
        exists [], (w :: argv), us. repeat split; [constructor| |exact Hw]. rewrite app_nil_r.
        apply (take_append_nonempty o acc st st'); [apply Hm|exact E].
    + destruct m; congruence.
Qed.
End Uses.

(** ** the effect of the uses *)
Definition partners (n : string) : list string :=
  flat_map (fun ab => if String.eqb (fst ab) n then [snd ab] else if String.eqb (snd ab) n then [fst ab] else []) exclusive.
Definition rivals (p : list opt) (o : opt) : list string :=
  match o_group o with
  | None => []
  | Some g => map o_name (filter (fun o' => match o_group o' with Some g' => String.eqb g' g | None => false end
                                            && negb (String.eqb (o_name o') (o_name o))) p)
  end.
Lemma existsb_eqb_in n l : existsb (String.eqb n) l = true <-> In n l.
Proof.
  rewrite existsb_exists. split.
  - intros (x & Hx & E). apply String.eqb_eq in E. congruence.
  - intros H. exists n. split; [exact H|apply String.eqb_refl].
Qed.
Lemma conflicts_rivals p o seen : conflicts p o seen = true <-> exists n, In n (rivals p o) /\ In n seen.
Proof.
  unfold conflicts, rivals. destruct (o_group o) as [g|].
  - rewrite existsb_exists. split.
    + intros (x & Hx & E). apply andb_prop in E. destruct E as [E1 E2]. apply existsb_eqb_in in E2.
      exists (o_name x). split; [|exact E2]. apply in_map. apply filter_In. split; assumption.
    + intros (n & Hn & Hs). apply in_map_iff in Hn. destruct Hn as (x & <- & Hx). apply filter_In in Hx.
      destruct Hx as [Hx1 Hx2]. exists x. split; [exact Hx1|]. rewrite Hx2. apply existsb_eqb_in. exact Hs.
  - split; [discriminate|]. intros (n & [] & _).
Qed.
Lemma partners_in a n : In n (partners a) <-> (In (a, n) exclusive \/ In (n, a) exclusive) /\ n <> a \/ n = a /\ In (a, a) exclusive.
Proof.
  unfold partners. rewrite in_flat_map. split.
  - intros ((x & y) & Hx & Hn). cbn [fst snd] in Hn.
    destruct (String.eqb_spec x a) as [->|Hxa].
    + destruct Hn as [->|[]]. destruct (string_dec n a) as [->|Hne]; [right; split; auto|left; split; auto].
    + destruct (String.eqb_spec y a) as [->|Hya]; [|destruct Hn]. destruct Hn as [->|[]]. left. split; auto.
  - intros [[[H|H] Hne]|[-> H]].
    + exists (a, n). split; [exact H|]. cbn. rewrite String.eqb_refl. left. reflexivity.
    + exists (n, a). split; [exact H|]. cbn [fst snd]. destruct (String.eqb_spec n a); [congruence|].
      rewrite String.eqb_refl. left. reflexivity.
    + exists (a, a). split; [exact H|]. cbn. rewrite String.eqb_refl. left. reflexivity.
Qed.
Lemma exclusive_irrefl a : ~ In (a, a) exclusive.
Proof. intros H. cbn in H. destruct H as [H|[H|[]]]; injection H as E1 E2; congruence. Qed.

Section Effects.
Variable int_of : string -> option Z.
Variable float_ok : string -> bool.
Variable os : list opt.
Variable rs : list row.
Hypothesis Hok : names_ok (map o_name os).
Hypothesis Hrs : Forall2 matches rs os.
Hypothesis Hdest : NoDup (map (fun r => dest (r_opt r)) rs).
Hypothesis Htexts : forall r, In r rs -> r_reading r = Texts -> r_omitted r = VNone.
Hypothesis Hex : forall o, In o os -> rivals (help_opt :: os) o = partners (o_name o).
Let p := help_opt :: os.
Definition after (us : list use) : pstate :=
  (map (fun r => (dest (r_opt r), asked int_of float_ok r us)) rs, rev (map fst us)).
Definition good (us : list use) : Prop :=
  (forall u, In u us -> exists r, In r rs /\ fst u = r_opt r /\ value_of int_of float_ok (r_reading r) (snd u) <> None) /\
  (forall a b, In (a, b) exclusive -> ~ (In a (map fst us) /\ In b (map fst us))).

Lemma get_map (f : row -> value) r l : NoDup (map (fun r => dest (r_opt r)) l) -> In r l ->
  get (map (fun r => (dest (r_opt r), f r)) l) (dest (r_opt r)) = Some (f r).
Proof.
  induction l as [|x l IH]; [intros _ []|]. intros Hnd [->|Hr]; cbn [map get].
  - rewrite String.eqb_refl. reflexivity.
  - cbn in Hnd. inversion Hnd as [|? ? Hn Hnd']; subst.
    destruct (String.eqb_spec (dest (r_opt x)) (dest (r_opt r))) as [E|_].
    + exfalso. apply Hn. rewrite E. apply (in_map (fun r => dest (r_opt r))). exact Hr.
    + apply IH; assumption.
Qed.
Lemma set_map (f g : row -> value) r l : NoDup (map (fun r => dest (r_opt r)) l) -> In r l ->
  (forall x, In x l -> x <> r -> g x = f x) ->
  set (map (fun r => (dest (r_opt r), f r)) l) (dest (r_opt r)) (g r) = map (fun r => (dest (r_opt r), g r)) l.
Proof.
  induction l as [|x l IH]; intros Hnd Hr Hg; [destruct Hr|].
  cbn in Hnd. inversion Hnd as [|? ? Hn Hnd']; subst. cbn [map set].
  destruct (String.eqb_spec (dest (r_opt x)) (dest (r_opt r))) as [E|Hne].
  - assert (x = r).
    { destruct Hr as [->|Hr]; [reflexivity|]. exfalso. apply Hn. rewrite E. apply (in_map (fun r => dest (r_opt r))). exact Hr. }
    subst x. f_equal. apply map_ext_in. intros y Hy. f_equal. symmetry. apply Hg; [right; exact Hy|].
    intros ->. apply Hn. apply (in_map (fun r => dest (r_opt r))). exact Hy.
  - destruct Hr as [->|Hr]; [congruence|]. rewrite (Hg x); [|left; reflexivity|intros E; apply Hne; rewrite E; reflexivity]. f_equal.
    apply IH; [exact Hnd'|exact Hr|]. intros y Hy. apply Hg. right. exact Hy.
Qed.
Lemma row_inj r r' : In r rs -> In r' rs -> r_opt r = r_opt r' -> r = r'.
Proof.
  revert Hdest. generalize rs as l. induction l as [|x l IH]; intros Hnd; [intros []|].
  cbn in Hnd. inversion Hnd as [|? ? Hn Hnd']; subst.
  intros [<-|H] [<-|H'] E; auto.
  - exfalso. apply Hn. rewrite E. apply (in_map (fun r => dest (r_opt r))). exact H'.
  - exfalso. apply Hn. rewrite <- E. apply (in_map (fun r => dest (r_opt r))). exact H.
Qed.
Lemma uses_of_snoc o us u : uses_of o (us ++ [u])%list = (uses_of o us ++ (if String.eqb (fst u) o then [snd u] else []))%list.
Proof. unfold uses_of. rewrite filter_app, map_app. cbn [filter]. destruct (String.eqb (fst u) o); reflexivity. Qed.
Lemma asked_other r us u : fst u <> r_opt r -> asked int_of float_ok r (us ++ [u])%list = asked int_of float_ok r us.
Proof.
  intros H. unfold asked. rewrite uses_of_snoc. destruct (String.eqb_spec (fst u) (r_opt r)); [congruence|].
  rewrite app_nil_r. reflexivity.
Qed.
Lemma asked_last r us u v : fst u = r_opt r -> r_reading r <> Texts ->
  value_of int_of float_ok (r_reading r) (snd u) = Some v -> asked int_of float_ok r (us ++ [u])%list = v.
Proof.
  intros H Hk Hv. unfold asked. rewrite uses_of_snoc, H, String.eqb_refl.
  destruct (uses_of (r_opt r) us ++ [snd u])%list as [|x l] eqn:E.
  { destruct (uses_of (r_opt r) us); discriminate. }
  assert (El : last (x :: l) [] = snd u) by (rewrite <- E; apply last_last).
  destruct (r_reading r); try congruence; rewrite El, Hv; reflexivity.
Qed.
Lemma asked_texts r us u : fst u = r_opt r -> r_reading r = Texts ->
  asked int_of float_ok r (us ++ [u])%list = VLists (uses_of (r_opt r) us ++ [snd u])%list.
Proof.
  intros H Hk. unfold asked. rewrite uses_of_snoc, H, String.eqb_refl, Hk.
  destruct (uses_of (r_opt r) us ++ [snd u])%list as [|x l] eqn:E; [|reflexivity].
  destruct (uses_of (r_opt r) us); discriminate.
Qed.
Lemma after_value r us : In r rs -> get (fst (after us)) (dest (r_opt r)) = Some (asked int_of float_ok r us).
Proof. intros H. apply (get_map (fun r => asked int_of float_ok r us)); assumption. Qed.

Let conflict (n : string) (us : list use) : Prop := exists b, In b (partners n) /\ In b (map fst us).
Lemma take_after o r vs us : In o os -> In r rs -> matches r o ->
  take int_of float_ok p o vs (after us) =
  if conflicts p o (rev (map fst us)) then None
  else match value_of int_of float_ok (r_reading r) vs with
       | Some _ => Some (after (us ++ [(r_opt r, vs)]))
       | None => None
       end.
Proof.
  intros Ho Hr (En & Ek & _). unfold take, after. destruct (conflicts p o (rev (map fst us))); [reflexivity|].
  assert (Hset : forall v, asked int_of float_ok r (us ++ [(r_opt r, vs)])%list = v ->
     set (map (fun r0 => (dest (r_opt r0), asked int_of float_ok r0 us)) rs) (dest (o_name o)) v =
     map (fun r0 => (dest (r_opt r0), asked int_of float_ok r0 (us ++ [(r_opt r, vs)])%list)) rs).
  { intros v <-. rewrite <- En. apply (set_map (fun x => asked int_of float_ok x us)
      (fun x => asked int_of float_ok x (us ++ [(r_opt r, vs)])%list) r rs Hdest Hr).
    intros x Hx Hne. apply asked_other. cbn [fst]. intros E. apply Hne. apply row_inj; auto. }
  assert (Hseen : o_name o :: rev (map fst us) = rev (map fst (us ++ [(r_opt r, vs)])%list)).
  { rewrite map_app, rev_app_distr. cbn. rewrite En. reflexivity. }
  assert (Hplain : r_reading r <> Texts -> forall v, value_of int_of float_ok (r_reading r) vs = Some v ->
     Some (set (map (fun r0 => (dest (r_opt r0), asked int_of float_ok r0 us)) rs) (dest (o_name o)) v, o_name o :: rev (map fst us)) =
     Some (map (fun r0 => (dest (r_opt r0), asked int_of float_ok r0 (us ++ [(r_opt r, vs)])%list)) rs,
           rev (map fst (us ++ [(r_opt r, vs)])%list))).
  { intros Hk v Hv. rewrite Hseen, (Hset v); [reflexivity|]. apply (asked_last r us (r_opt r, vs) v); auto. }
  destruct (r_reading r) eqn:Er; cbn [kind_of] in Ek; rewrite <- Ek.
  - destruct vs; [|reflexivity]. cbn [value_of option_map]. apply Hplain; [discriminate|reflexivity].
  - destruct vs as [|s [|? ?]]; try reflexivity. cbn [value_of convert option_map] in *.
    destruct (int_of s) as [z|]; [|reflexivity]. cbn [option_map]. apply Hplain; [discriminate|reflexivity].
  - destruct vs as [|s [|? ?]]; try reflexivity. cbn [value_of convert option_map] in *.
    destruct (float_ok s); [|reflexivity]. cbn [option_map]. apply Hplain; [discriminate|reflexivity].
  - destruct vs as [|s [|? ?]]; try reflexivity. cbn [value_of convert option_map] in *. apply Hplain; [discriminate|reflexivity].
  - destruct vs as [|s t]; [reflexivity|]. cbn [value_of option_map].
    assert (Hg : get (map (fun r0 => (dest (r_opt r0), asked int_of float_ok r0 us)) rs) (dest (o_name o)) = Some (asked int_of float_ok r us)).
    { rewrite <- En. apply (after_value r us Hr). }
    rewrite Hg.
    assert (Hold : match asked int_of float_ok r us with VLists l => l | _ => [] end = uses_of (r_opt r) us).
    { unfold asked. rewrite Er. destruct (uses_of (r_opt r) us); [|reflexivity]. rewrite (Htexts r Hr Er). reflexivity. }
    rewrite Hold, Hseen. rewrite (Hset (VLists (uses_of (r_opt r) us ++ [s :: t])%list)); [reflexivity|].
    apply (asked_texts r us (r_opt r, s :: t)); auto.
Qed.
Lemma acts_app us vs st : acts int_of float_ok os (us ++ vs) st =
  match acts int_of float_ok os us st with Some st => acts int_of float_ok os vs st | None => None end.
Proof.
  revert st. induction us as [|u us IH]; intros st; [reflexivity|]. cbn [app acts].
  destruct (act int_of float_ok os u st); [apply IH|reflexivity].
Qed.
Lemma good_snoc us u : good (us ++ [u]) <->
  good us /\ (exists r, In r rs /\ fst u = r_opt r /\ value_of int_of float_ok (r_reading r) (snd u) <> None) /\
  ~ conflict (fst u) us.
Proof.
  unfold good, conflict. split.
  - intros [H1 H2]. rewrite map_app in H2. cbn [map] in H2. repeat split.
    + intros x Hx. apply H1. apply in_or_app. left. exact Hx.
    + intros a b Hab [Ha Hb]. apply (H2 a b Hab). split; apply in_or_app; left; assumption.
    + apply H1. apply in_or_app. right. left. reflexivity.
    + intros (b & Hb & Hin). apply partners_in in Hb. destruct Hb as [[[H|H] _]|[_ H]].
      * apply (H2 _ _ H). split; apply in_or_app; [right; left; reflexivity|left; exact Hin].
      * apply (H2 _ _ H). split; apply in_or_app; [left; exact Hin|right; left; reflexivity].
      * exact (exclusive_irrefl _ H).
  - intros ([H1 H2] & H3 & H4). rewrite map_app. cbn [map]. split.
    + intros x Hx. apply in_app_or in Hx. destruct Hx as [Hx|[<-|[]]]; [apply H1; exact Hx|exact H3].
    + intros a b Hab [Ha Hb]. apply in_app_or in Ha. apply in_app_or in Hb.
      destruct Ha as [Ha|[<-|[]]], Hb as [Hb|[<-|[]]].
      * apply (H2 a b Hab). split; assumption.
      * apply H4. exists a. split; [|exact Ha]. apply partners_in. left. split; [right; exact Hab|].
        intros ->. exact (exclusive_irrefl _ Hab).
      * apply H4. exists b. split; [|exact Hb]. apply partners_in. left. split; [left; exact Hab|].
        intros ->. exact (exclusive_irrefl _ Hab).
      * exact (exclusive_irrefl _ Hab).
Qed.
Lemma conflicts_conflict o us : In o os -> (conflicts p o (rev (map fst us)) = true <-> conflict (o_name o) us).
Proof.
  intros Ho. rewrite conflicts_rivals. unfold p. rewrite (Hex o Ho). unfold conflict.
  split; intros (n & H1 & H2); exists n; (split; [exact H1|]); [apply in_rev; exact H2|apply in_rev in H2; exact H2].
Qed.
Lemma acts_good us st : acts int_of float_ok os us (after []) = Some st <-> good us /\ st = after us.
Proof.
  revert st. induction us as [|u us IH] using rev_ind; intros st.
  - cbn. split; [intros H; injection H as <-|intros [_ ->]; reflexivity]. split; [|reflexivity].
    split; [intros u []|intros a b _ [[] _]].
  - rewrite acts_app, good_snoc.
    destruct (acts int_of float_ok os us (after [])) as [st0|] eqn:E.
    2:{ split; [discriminate|]. intros [(Hg & _) _]. assert (X : None = Some (after us)) by (apply IH; auto). discriminate X. }
    apply (proj1 (IH st0)) in E || destruct (proj1 (IH st0) eq_refl) as [Hg ->].
    destruct u as [n vs]. cbn [acts fst snd].
    unfold act. cbn [fst snd]. destruct (exact (help_opt :: os) n) as [o|] eqn:Ee.
    2:{ split; [discriminate|]. intros [(_ & (r & Hr & En & _) & _) _].
        destruct (row_opt os rs Hrs r Hr) as (o & Ho & Hm & _). exfalso.
        rewrite En, Hm, (exact_name os Hok) in Ee by (right; exact Ho). discriminate. }
    destruct (exact_in os _ _ Ee) as [Hi <-]. destruct (in_p os _ Hi) as [->|Ho].
    { split.
      - unfold after. cbn. destruct vs; discriminate.
      - intros [(_ & (r & Hr & En & _) & _) _]. destruct (row_opt os rs Hrs r Hr) as (o & Ho & Hm & _). exfalso.
        destruct Hok as [Hnd _]. inversion Hnd as [|? ? Hn _]; subst. apply Hn. cbn in En. rewrite En, Hm. apply in_map. exact Ho. }
    destruct (opt_row os rs Hrs o Ho) as (r & Hr & Hm).
    change (help_opt :: os) with p. rewrite (take_after o r vs us Ho Hr Hm).
    pose proof (conflicts_conflict o us Ho) as Hc. assert (En : r_opt r = o_name o) by apply Hm.
    destruct (conflicts p o (rev (map fst us))).
    { split; [discriminate|]. intros [(_ & _ & H) _]. exfalso. apply H, Hc. reflexivity. }
    destruct (value_of int_of float_ok (r_reading r) vs) as [v|] eqn:Ev.
    + split.
      * intros H. injection H as <-. rewrite En. repeat split; auto; try apply Hg.
        { exists r. rewrite Ev. repeat split; auto. discriminate. }
        { intros H. apply Hc in H. discriminate. }
      * intros [_ ->]. rewrite En. reflexivity.
    + split; [discriminate|]. intros [(_ & (r' & Hr' & En' & Hv) & _) _]. exfalso.
      assert (r' = r) by (apply row_inj; auto; congruence). subst r'. apply Hv. exact Ev.
Qed.
Lemma written_rows us argv : written rs us argv -> forall u, In u us -> exists r, In r rs /\ fst u = r_opt r.
Proof.
  induction 1 as [|r u us words argv Hr Hu Hp Hw IH]; intros x Hx; [destruct Hx|].
  destruct Hx as [<-|Hx]; [exists r; auto|apply IH; exact Hx].
Qed.
Lemma good_acceptable us argv : written rs us argv -> 
  (acceptable int_of float_ok rs us <-> good us /\ forall r, In r rs -> r_needed r = true -> In (r_opt r) (map fst us)).
Proof.
  intros Hw. unfold acceptable, good. split.
  - intros (H1 & H2 & H3). repeat split; auto. intros u Hu. destruct (written_rows _ _ Hw u Hu) as (r & Hr & En).
    exists r. repeat split; auto.
  - intros ((H1 & H3) & H2). repeat split; auto. intros r u Hr Hu En. destruct (H1 u Hu) as (r' & Hr' & En' & Hv).
    assert (r' = r) by (apply row_inj; auto; congruence). subst r'. exact Hv.
Qed.
Lemma defaults_after : Forall (fun o => o_kind o <> OHelp) os -> (defaults p, @nil string) = after [].
Proof.
  intros Hk. unfold after. cbn [map rev]. f_equal. unfold defaults, p. cbn [filter help_opt o_kind].
  clear -Hrs Hk. revert Hk. pose proof Hrs as F. clear Hrs. induction F as [|r o rs' os' (H1 & _ & H3 & _) _ IH]; [reflexivity|].
  intros Hk. inversion Hk as [|? ? Hko Hk']; subst. cbn [filter map].
  assert (E : match o_kind o with OHelp => false | _ => true end = true) by (destruct (o_kind o); congruence).
  rewrite E. cbn [map]. rewrite <- (IH Hk'), <- H1, <- H3. unfold asked. destruct (r_reading r); reflexivity.
Qed.
(** the parser: what it accepts and what it makes of it *)
Lemma parse_written us argv : Forall (fun o => o_kind o <> OHelp) os -> written rs us argv -> forall ns,
  parse_args int_of float_ok p argv = Some ns <->
  acceptable int_of float_ok rs us /\ ns = map (fun r => (dest (r_opt r), asked int_of float_ok r us)) rs.
Proof.
  intros Hk Hw ns. rewrite (good_acceptable us argv Hw). unfold parse_args. rewrite (defaults_after Hk).
  unfold p. rewrite (consume_written int_of float_ok os rs Hok Hrs us argv Hw).
  destruct (acts int_of float_ok os us (after [])) as [st|] eqn:E.
  - destruct (proj1 (acts_good us st) E) as [Hg ->]. unfold after at 1. cbn [fst snd].
    assert (Hneed : forallb (fun o => negb (o_required o) || existsb (String.eqb (o_name o)) (rev (map fst us))) (help_opt :: os) = true
      <-> forall r, In r rs -> r_needed r = true -> In (r_opt r) (map fst us)).
    { rewrite forallb_forall. split.
      - intros H r Hr Hn. destruct (row_opt os rs Hrs r Hr) as (o & Ho & Hm & _ & _ & Hq).
        specialize (H o (or_intror Ho)). rewrite <- Hq, Hn in H. cbn in H. apply existsb_eqb_in in H.
        rewrite Hm. apply in_rev. exact H.
      - intros H o [<-|Ho]; [reflexivity|]. destruct (opt_row os rs Hrs o Ho) as (r & Hr & Hm & _ & _ & Hq).
        destruct (o_required o) eqn:Eq; [|reflexivity]. cbn. apply existsb_eqb_in. rewrite <- in_rev, <- Hm.
        apply H; [exact Hr|exact Hq]. }
    destruct (forallb _ _) eqn:Ef.
    + split; [intros H; injection H as <-; split; [split; [exact Hg|apply Hneed; reflexivity]|reflexivity]|].
      intros [_ ->]. reflexivity.
    + split; [discriminate|]. intros [[_ H] _]. apply Hneed in H. congruence.
  - split; [discriminate|]. intros [[Hg _] _]. assert (X : None = Some (after us)) by (rewrite <- E; apply acts_good; auto).
    discriminate X.
Qed.
Lemma parse_is_written argv ns : parse_args int_of float_ok p argv = Some ns -> exists us, written rs us argv.
Proof.
  unfold parse_args. intros H.
  destruct (consume int_of float_ok p argv Idle (defaults p, [])) as [st|] eqn:E; [|discriminate].
  apply (consume_continues int_of float_ok os rs Hok Hrs argv Idle (defaults p, []) I). unfold p in E.
  intros H0. assert (X : Some st = None) by (rewrite <- E; exact H0). discriminate X.
Qed.
End Effects.

(** ** the commands *)
Fixpoint distinct (l : list string) : bool :=
  match l with [] => true | x :: t => negb (existsb (String.eqb x) t) && distinct t end.
Lemma distinct_NoDup l : distinct l = true -> NoDup l.
Proof.
  induction l as [|x l IH]; intros H; constructor; cbn [distinct] in H; apply andb_prop in H; destruct H as [H1 H2].
  - intros Hin. apply existsb_eqb_in in Hin. rewrite Hin in H1. discriminate.
  - apply IH. exact H2.
Qed.
Definition name_ok (n : string) : bool :=
  prefix "--" n && negb (String.eqb n "--") && match cut n with None => true | Some _ => false end.
Lemma names_ok_bool l : distinct ("--help" :: l) = true -> forallb name_ok l = true -> names_ok l.
Proof.
  intros H1 H2. split; [apply distinct_NoDup; exact H1|]. rewrite forallb_forall in H2. apply Forall_forall.
  intros n Hn. specialize (H2 n Hn). unfold name_ok in H2. apply andb_prop in H2. destruct H2 as [H2 H4].
  apply andb_prop in H2. destruct H2 as [H2 H3]. repeat split; [exact H2| |].
  - intros ->. discriminate H3.
  - destruct (cut n); [discriminate|reflexivity].
Qed.
Ltac each_command c := destruct c as [[]|[]|[]|[]| | | |].
Lemma build_options c : build (options c) = Some (help_opt :: options c).
Proof. each_command c; vm_compute; reflexivity. Qed.
Lemma options_ok c : names_ok (map o_name (options c)).
Proof. apply names_ok_bool; each_command c; vm_compute; reflexivity. Qed.
Lemma rows_match c : Forall2 matches (rows c) (options c).
Proof. each_command c; cbn; repeat constructor. Qed.
Lemma rows_dest c : NoDup (map (fun r => dest (r_opt r)) (rows c)).
Proof. apply distinct_NoDup. each_command c; vm_compute; reflexivity. Qed.
Lemma rows_texts c r : In r (rows c) -> r_reading r = Texts -> r_omitted r = VNone.
Proof.
  intros Hr. assert (H : forallb (fun r => match r_reading r, r_omitted r with Texts, VNone => true | Texts, _ => false | _, _ => true end) (rows c) = true)
    by (each_command c; vm_compute; reflexivity).
  rewrite forallb_forall in H. specialize (H r Hr). intros E. rewrite E in H. destruct (r_omitted r); congruence.
Qed.
Definition strings_eqb (a b : list string) : bool := if list_eq_dec string_dec a b then true else false.
Lemma options_rivals c o : In o (options c) -> rivals (help_opt :: options c) o = partners (o_name o).
Proof.
  intros Ho. assert (H : forallb (fun o => strings_eqb (rivals (help_opt :: options c) o) (partners (o_name o))) (options c) = true)
    by (each_command c; vm_compute; reflexivity).
  rewrite forallb_forall in H. specialize (H o Ho). unfold strings_eqb in H.
  destruct (list_eq_dec string_dec _ _) as [E|]; [exact E|discriminate].
Qed.
Lemma options_no_help c : Forall (fun o => o_kind o <> OHelp) (options c).
Proof. each_command c; cbn; repeat constructor; discriminate. Qed.
Definition namespace (rs : list row) (f : row -> value) : env := map (fun r => (dest (r_opt r), f r)) rs.

Section Command.
Variable int_of : string -> option Z.
Variable float_ok : string -> bool.
Lemma run_written c us argv : written (rows c) us argv -> 
  (acceptable int_of float_ok (rows c) us /\ run int_of float_ok c argv = main c (namespace (rows c) (fun r => asked int_of float_ok r us))) \/
  (~ acceptable int_of float_ok (rows c) us /\ run int_of float_ok c argv = None).
Proof.
  intros Hw. unfold run. rewrite build_options.
  pose proof (parse_written int_of float_ok (options c) (rows c) (options_ok c) (rows_match c) (rows_dest c) (rows_texts c)
    (options_rivals c) us argv (options_no_help c) Hw) as H.
  destruct (parse_args int_of float_ok (help_opt :: options c) argv) as [ns|].
  - left. destruct (proj1 (H ns) eq_refl) as [Ha ->]. split; [exact Ha|reflexivity].
  - right. split; [|reflexivity]. intros Ha. assert (X : None = Some (namespace (rows c) (fun r => asked int_of float_ok r us))) by (apply H; auto).
    discriminate X.
Qed.
Lemma run_is_written c argv obj : run int_of float_ok c argv = Some obj -> exists us, written (rows c) us argv.
Proof.
  unfold run. rewrite build_options. intros H.
  destruct (parse_args int_of float_ok (help_opt :: options c) argv) as [ns|] eqn:E; [|discriminate].
  exact (parse_is_written int_of float_ok (options c) (rows c) (options_ok c) (rows_match c) argv ns E).
Qed.
End Command.

(** the main functions on a namespace *)
Definition seed_row : row := Row "--seed" Integer "seed" (VInt 37) false.
Definition seed_good (c : command) (v : value) : bool :=
  match c, v with
  | (GenieNpl | GenieEcc), _ => true
  | _, VInt z => (0 <=? z)%Z
  | _, _ => false
  end.
Definition is_genie (c : command) : bool := match c with GenieNpl | GenieEcc => true | _ => false end.
Definition is_switch (v : value) : Prop := exists b, v = VBool b.
Definition beta_row (c : command) : option row :=
  match c with
  | SageNpl _ => Some (switch_row "--add-beta-spin-magnitude" "has_beta_spin_magnitude")
  | SageO3 _ | SageO4 _ => Some (switch_row "--add-beta-spin-magnitude" "use_beta_spin_magnitude")
  | _ => None
  end.
Definition switches_good (c : command) (f : row -> value) : Prop :=
  match beta_row c with Some r => is_switch (f r) | None => True end.
Definition idle_optionb (c : command) (o : string) : bool :=
  match c with MonkNpl | MonkEcc => String.eqb o "--variance-cut-threshold" | _ => false end.
Lemma settings_all c obj f :
  map (fun r => get obj (r_setting r)) (filter (fun r => negb (idle_optionb c (r_opt r))) (rows c)) =
  map (fun r => Some (f r)) (filter (fun r => negb (idle_optionb c (r_opt r))) (rows c)) ->
  forall r, In r (rows c) -> ~ idle_option c (r_opt r) -> get obj (r_setting r) = Some (f r).
Proof.
  intros H r Hr Hi. assert (Hf : In r (filter (fun r => negb (idle_optionb c (r_opt r))) (rows c))).
  { apply filter_In. split; [exact Hr|]. destruct (idle_optionb c (r_opt r)) eqn:E; [|reflexivity].
    exfalso. apply Hi. destruct c; try discriminate E; apply String.eqb_eq; exact E. }
  revert H Hf. generalize (filter (fun r => negb (idle_optionb c (r_opt r))) (rows c)) as l.
  induction l as [|x l IH]; intros H [].
  - subst x. cbn [map] in H. congruence.
  - apply IH; [|assumption]. cbn [map] in H. congruence.
Qed.
Definition beta_used (v : value) : bool := match v with VBool true => true | _ => false end.
Lemma main_settings c f : switches_good c f -> seed_good c (f seed_row) = true ->
  exists obj, main c (namespace (rows c) f) = Some obj /\
    (forall r, In r (rows c) -> ~ idle_option c (r_opt r) -> get obj (r_setting r) = Some (f r)) /\
    (map (fun kv => get obj (fst kv)) (analysis c) = map (fun kv => Some (VStr (snd kv))) (analysis c)) /\
    match spin_check c, beta_row c with
    | Some w, Some r => get obj "where_fns" = Some (if beta_used (f r) then VStr w else VNone)
    | _, _ => True
    end.
Proof.
  intros Hb Hs.
  assert (Hsf : forall x, f seed_row = x -> f (Row "--seed" Integer "seed" (VInt 37) false) = x) by auto.
  destruct c as [[]|[]|[]|[]| | | |]; unfold switches_good in Hb; cbn [beta_row] in Hb |- *; unfold switch_row in Hb |- *;
    try (destruct Hb as [bb Hb]);
    try (cbn [seed_good] in Hs; destruct (f seed_row) as [| |z| | |] eqn:Ez; try discriminate;
         specialize (Hsf _ eq_refl); clear Ez; destruct z as [|z|z]; [| |discriminate Hs]).
  all: match goal with |- exists obj, ?m = _ /\ _ => let v := eval vm_compute in m in change m with v end.
  all: try rewrite Hb; try rewrite Hsf.
  all: try destruct bb.
  all: eexists; split; [reflexivity|].
  all: (split; [apply settings_all; vm_compute; rewrite ?Hb, ?Hsf; reflexivity|]).
  all: split; [vm_compute; reflexivity|vm_compute; first [exact I|reflexivity]].
Qed.
Lemma main_negative c f : switches_good c f -> is_genie c = false -> (exists z, f seed_row = VInt (Zneg z)) ->
  main c (namespace (rows c) f) = None.
Proof.
  intros Hb Hg [z Ez]. unfold seed_row in Ez.
  destruct c as [[]|[]|[]|[]| | | |]; try discriminate Hg; unfold switches_good in Hb; cbn [beta_row] in Hb; unfold switch_row in Hb;
    try (destruct Hb as [bb Hb]).
  all: match goal with |- ?m = _ => let v := eval vm_compute in m in change m with v end.
  all: try rewrite Hb; try rewrite Ez; try destruct bb; reflexivity.
Qed.
Definition backend_of (c : command) : option (backend -> command) :=
  match c with
  | SageNpl _ => Some SageNpl | SageO3 _ => Some SageO3 | SageO4 _ => Some SageO4 | SageEcc _ => Some SageEcc
  | _ => None
  end.
Definition differs (k : string) : bool := String.eqb k "likelihood_fn" || String.eqb k "analysis_name".
Lemma get_filter e k : differs k = false -> get (filter (fun kv => negb (differs (fst kv))) e) k = get e k.
Proof.
  intros Hk. induction e as [|(k', v) e IH]; [reflexivity|]. cbn [filter fst]. destruct (differs k') eqn:E; cbn [negb get].
  - destruct (String.eqb_spec k' k); [congruence|exact IH].
  - destruct (String.eqb k' k); [reflexivity|exact IH].
Qed.
Lemma main_backends c f : switches_good c f -> seed_good c (f seed_row) = true -> forall C b b', backend_of c = Some C ->
  option_map (filter (fun kv => negb (differs (fst kv)))) (main (C b) (namespace (rows c) f)) =
  option_map (filter (fun kv => negb (differs (fst kv)))) (main (C b') (namespace (rows c) f)).
Proof.
  intros Hb Hs C b b' HC.
  assert (Hsf : forall x, f seed_row = x -> f (Row "--seed" Integer "seed" (VInt 37) false) = x) by auto.
  destruct c as [c|c|c|c| | | |]; try discriminate HC; injection HC as <-;
    unfold switches_good in Hb; cbn [beta_row] in Hb; unfold switch_row in Hb;
    try (destruct Hb as [bb Hb]);
    (cbn [seed_good] in Hs; destruct (f seed_row) as [| |z| | |] eqn:Ez; try discriminate;
         specialize (Hsf _ eq_refl); clear Ez; destruct z as [|z|z]; [| |discriminate Hs]).
  all: destruct b, b'; try reflexivity.
  all: match goal with |- option_map ?g ?m = option_map ?g ?n => let v := eval vm_compute in m in let w := eval vm_compute in n in change m with v; change n with w end.
  all: rewrite ?Hb, ?Hsf; try destruct bb; vm_compute; reflexivity.
Qed.
