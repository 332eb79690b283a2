(** Property C95: what the entries of the prior configuration become. *)
From Coq Require Import String Reals Lra Lia List Bool Arith.
From Verif Require Import Model_X Model_Joint Model_Guru Model_Config Proofs_Config Spec_Priors.
Import ListNotations.
Open Scope string_scope.
Open Scope list_scope.

Lemma dget_split {A} (d : list (string * A)) k v : dget d k = Some v ->
  exists a b, d = a ++ (k, v) :: b /\ ~ In k (map fst a).
Proof.
  induction d as [|[k' v'] d IH]; [discriminate|]. cbn [dget]. destruct (String.eqb_spec k' k) as [->|Hn].
  - intros E. injection E as <-. exists [], d. split; auto.
  - intros E. destruct (IH E) as (a & b & -> & Ha). exists ((k', v') :: a), b. split; auto.
    cbn [map fst]. intros [H|H]; auto.
Qed.
Lemma dpop_absent {A} (d : list (string * A)) k : ~ In k (map fst d) -> dpop d k = d.
Proof.
  induction d as [|[k' v] d IH]; intros H; [reflexivity|]. unfold dpop in *. cbn [filter fst].
  destruct (String.eqb_spec k' k) as [->|Hn]; [exfalso; apply H; now left|]. cbn [negb]. f_equal. apply IH. intros Hi. apply H. now right.
Qed.
Lemma dpop_split {A} a b (k : string) (v : A) : ~ In k (map fst a) -> ~ In k (map fst b) -> dpop (a ++ (k, v) :: b) k = a ++ b.
Proof.
  intros Ha Hb. unfold dpop. rewrite filter_app. cbn [filter fst]. rewrite String.eqb_refl. cbn [negb].
  fold (dpop a k) (dpop b k). now rewrite !dpop_absent.
Qed.
Lemma split_filter fs : split_fields fs (map str_of (filter is_str fs)) (filter (fun p => negb (is_str p)) fs).
Proof.
  induction fs as [|[k v] fs IH]; [constructor|]. cbn [filter is_str snd].
  destruct v; cbn [negb map str_of fst snd]; try (apply split_rest; [discriminate|exact IH]). now apply split_name.
Qed.

Lemma process_stands {K} available (make : string -> list (string * cval) -> list (string * list X) -> dist K) v w :
  proper_fields v -> process available make v = Some w -> stands_for available make v w.
Proof.
  intros Hp. destruct v as [|x|s|fields|b]; cbn [process]; try (intros E; injection E as <-; constructor).
  destruct (dget fields "dist") as [dv|] eqn:Ed; [|discriminate].
  destruct dv as [|x|name|f|b]; try discriminate.
  destruct (String.eqb_spec name ""); [discriminate|]. destruct (available name) eqn:Ea; [|discriminate]. cbn [orb negb].
  destruct (dget_split fields "dist" _ Ed) as (a & c & -> & Ha).
  assert (Hc : ~ In "dist" (map fst c)).
  { cbn [proper_fields] in Hp. rewrite map_app in Hp. cbn [map fst] in Hp. apply NoDup_remove_2 in Hp. intros H. apply Hp, in_or_app. now right. }
  rewrite dpop_split by auto. destruct (existsb is_str (a ++ c)) eqn:Es; intros E; injection E as <-.
  - apply sf_lazy; auto; [apply split_filter|].
    apply existsb_exists in Es as (p & Hin & Hs). intros E. apply map_eq_nil in E.
    assert (In p (filter is_str (a ++ c))) by (apply filter_In; auto). rewrite E in H. destruct H.
  - pose proof (split_filter (a ++ c)) as Sp.
    assert (N : forall l, existsb is_str l = false -> filter is_str l = [] /\ filter (fun p => negb (is_str p)) l = l).
    { clear. induction l as [|p l IH]; intros H; [auto|]. cbn [existsb filter] in *. apply orb_false_iff in H as [H1 H2].
      rewrite H1. cbn [negb]. destruct (IH H2) as [A B]. split; [exact A|now rewrite B]. }
    destruct (N _ Es) as [N1 N2]. rewrite N1, N2 in Sp. apply sf_distribution; auto.
Qed.

(** the result has one value for every matched parameter, in order, and it is the one the entry stands for *)
Theorem C95_entries_interpreted :
  forall fullmatch K available (make : string -> list (string * cval) -> list (string * list X) -> dist K) params c r,
  get_processed_priors fullmatch available make params c = Some r ->
  List.Forall (fun kv => proper_fields (snd kv)) (match_all fullmatch params c) ->
  Forall2 (fun kv kw => fst kv = fst kw /\ stands_for available make (snd kv) (snd kw)) (match_all fullmatch params c) r.
Proof.
  intros fullmatch K available make params c r. unfold get_processed_priors. destruct (forallb _ params); [|discriminate].
  generalize (match_all fullmatch params c) as m. intros m. revert r. induction m as [|[k v] m IH]; intros r.
  - intros E _. injection E as <-. constructor.
  - cbn [map_opt fst snd]. destruct (process available make v) as [w|] eqn:Ew; [|discriminate]. cbn [option_map].
    destruct (map_opt _ m) as [r'|] eqn:Er; [|discriminate]. intros E H; injection E as <-.
    inversion H; subst. constructor; [|now apply IH]. cbn [fst snd] in *. split; auto. now apply process_stands.
Qed.
Print Assumptions C95_entries_interpreted.

(** an entry stands for at most one value *)
Theorem C95_meaning_unique :
  forall K available (make : string -> list (string * cval) -> list (string * list X) -> dist K) v w w',
  proper_fields v -> stands_for available make v w -> stands_for available make v w' -> w = w'.
Proof.
  intros K available make v.
  assert (S : forall fs n1 r1 n2 r2, split_fields fs n1 r1 -> split_fields fs n2 r2 -> n1 = n2 /\ r1 = r2).
  { intros fs n1 r1 n2 r2 H. revert n2 r2. induction H as [|k s fs n r H IH|k x fs n r Hx H IH]; intros n2 r2 H2; inversion H2; subst; clear H2; try clear H.
    - auto.
    - match goal with HH : split_fields fs _ _ |- _ => destruct (IH _ _ HH) as [-> ->] end. auto.
    - exfalso. match goal with HH : forall _, CStr ?y <> CStr _ |- _ => now apply (HH y) end.
    - exfalso. match goal with HH : forall _, CStr ?y <> CStr _ |- _ => now apply (HH y) end.
    - match goal with HH : split_fields fs _ _ |- _ => destruct (IH _ _ HH) as [-> ->] end. auto. }
  assert (U : forall a c a' c' n n', NoDup (map fst (a ++ ("dist", CStr n) :: c)) ->
     a ++ ("dist", CStr n) :: c = a' ++ ("dist", CStr n') :: c' -> n = n' /\ a ++ c = a' ++ c').
  { clear. induction a as [|[k v] a IH]; intros c [|[k' v'] a'] c' n n' Hd E.
    - cbn [app] in *. injection E as <- <-. auto.
    - cbn [app] in E. injection E as E1 E2 E3. subst k' v' c. cbn [app map fst] in Hd. inversion Hd as [|? ? H1 H2]. exfalso. apply H1.
      rewrite map_app. apply in_or_app. right. now left.
    - cbn [app] in E. injection E as E1 E2 E3. subst k v c'. cbn [app map fst] in Hd. inversion Hd as [|? ? H1 H2]. exfalso. apply H1.
      rewrite map_app. apply in_or_app. right. now left.
    - cbn [app] in E. injection E as E1 E2 E3. subst k' v'. cbn [app map fst] in Hd. inversion Hd; subst.
      destruct (IH _ _ _ _ _ H2 E3) as [-> Q]. cbn [app]. now rewrite Q. }
  assert (M : forall v' w', stands_for available make v' w' -> forall fs, v' = CDict fs ->
     exists a n c names rest, fs = a ++ ("dist", CStr n) :: c /\ split_fields (a ++ c) names rest
       /\ w' = match names with [] => VDist (make n rest []) | _ => VLazy (make n rest) names end).
  { intros v' w' H fs E. destruct H as [| | | |a n c rest H1 H2 H3|a n c names rest H1 H2 H3 H4]; try discriminate.
    - injection E as <-. exists a, n, c, [], rest. auto.
    - injection E as <-. exists a, n, c, names, rest. repeat split; auto. now destruct names. }
  intros w w' Hp H H'. destruct v as [|x|s|fs|b]; [inversion H; inversion H'; subst; congruence .. | | inversion H; inversion H'; subst; congruence].
  destruct (M _ _ H fs eq_refl) as (a & n & c & names & rest & E1 & E2 & ->).
  destruct (M _ _ H' fs eq_refl) as (a' & n' & c' & names' & rest' & E1' & E2' & ->).
  subst fs. cbn [proper_fields] in Hp. destruct (U _ _ _ _ _ _ Hp E1') as [-> Q]. rewrite <- Q in E2'.
  destruct (S _ _ _ _ _ E2 E2') as [-> ->]. reflexivity.
Qed.
Print Assumptions C95_meaning_unique.

(** it raises exactly when some matched entry is a dictionary that does not name a known distribution *)
Theorem C95_rejected_iff :
  forall fullmatch K available (make : string -> list (string * cval) -> list (string * list X) -> dist K) params c,
  List.Forall (fun kv => proper_fields (snd kv)) (match_all fullmatch params c) ->
  (get_processed_priors fullmatch available make params c = None
   <-> exists k v, In (k, v) (match_all fullmatch params c) /\ ~ names_distribution available v).
Proof.
  intros fullmatch K available make params c Hp.
  assert (P : forall v, proper_fields v -> (process available make v = None <-> ~ names_distribution available v)).
  { intros v Hv. destruct v as [|x|s|fields|b]; cbn [process names_distribution]; try (split; [discriminate|tauto]).
    split.
    - intros E (name & Hin & Hne & Ha). destruct (dget fields "dist") as [dv|] eqn:Ed.
      + destruct (dget_split _ _ _ Ed) as (a & b & -> & Hab).
        assert (dv = CStr name).
        { cbn [proper_fields] in Hv. apply in_app_or in Hin. destruct Hin as [Hin|[Hin|Hin]].
          - exfalso. apply Hab. now apply (in_map fst) in Hin.
          - now injection Hin.
          - exfalso. rewrite map_app in Hv. cbn [map fst] in Hv. apply NoDup_remove_2 in Hv. apply Hv, in_or_app. right.
            now apply (in_map fst) in Hin. }
        subst dv. destruct (String.eqb_spec name ""); [contradiction|]. rewrite Ha in E. cbn [orb negb] in E.
        destruct (existsb _ _); discriminate.
      + clear - Ed Hin. induction fields as [|[k v] fs IH]; [destruct Hin|]. cbn [dget] in Ed.
        destruct (String.eqb_spec k "dist"); [discriminate|]. destruct Hin as [H|H]; [congruence|auto].
    - intros N. destruct (dget fields "dist") as [dv|] eqn:Ed; [|reflexivity]. destruct dv as [|x|name|f|b]; try reflexivity.
      destruct (String.eqb_spec name ""); [reflexivity|]. destruct (available name) eqn:Ea; [|reflexivity].
      exfalso. apply N. exists name. destruct (dget_split _ _ _ Ed) as (a & b & -> & _). repeat split; auto.
      apply in_or_app. right. now left. }
  assert (T : forallb (fun p => din (match_all fullmatch params c) p) params = true).
  { apply forallb_forall. intros n Hn. unfold din. destruct (match_all_total fullmatch c params n Hn) as (v & ->). reflexivity. }
  unfold get_processed_priors. rewrite T. clear T. revert Hp. generalize (match_all fullmatch params c) as m.
  induction m as [|[k v] m IH]; intros Hp.
  - cbn [map_opt]. split; [discriminate|]. intros (k & v & [] & _).
  - inversion Hp; subst. cbn [fst snd] in *. specialize (IH H2). cbn [map_opt fst snd].
    destruct (process available make v) as [w|] eqn:Ew; cbn [option_map].
    + destruct (map_opt _ m) as [r|] eqn:Er.
      * split; [discriminate|]. intros (k' & v' & [Hin|Hin] & Hn).
        -- injection Hin as <- <-. apply (P v H1) in Hn. congruence.
        -- assert (Some r = None) by (apply IH; eauto). discriminate.
      * split; [intros _|reflexivity]. destruct (proj1 IH eq_refl) as (k' & v' & Hin & Hn). exists k', v'. split; auto. now right.
    + split; [intros _|reflexivity]. exists k, v. split; [now left|]. now apply P.
Qed.
Print Assumptions C95_rejected_iff.

Definition ex_c : config :=
  [("mmax", CDict [("low", CNum (Fin 1)); ("dist", CStr "Uniform"); ("high", CNum (Fin 2))]);
   ("mmin", CDict [("dist", CStr "Uniform"); ("low", CNum (Fin 1)); ("high", CStr "mmax")]);
   ("beta", CNum (Fin 3)); ("alpha", CStr "beta")].
Example C95_nonvacuous : forall (d : dist nat) (make := fun (_ : string) (_ : list (string * cval)) (_ : list (string * list X)) => d),
  match_all String.eqb ["mmax"; "mmin"; "beta"] ex_c
    = [("mmax", CDict [("low", CNum (Fin 1)); ("dist", CStr "Uniform"); ("high", CNum (Fin 2))]);
       ("mmin", CDict [("dist", CStr "Uniform"); ("low", CNum (Fin 1)); ("high", CStr "mmax")]); ("beta", CNum (Fin 3))]
  /\ List.Forall (fun kv => proper_fields (snd kv)) (match_all String.eqb ["mmax"; "mmin"; "beta"] ex_c)
  /\ stands_for (fun _ => true) make (CDict [("dist", CStr "Uniform"); ("low", CNum (Fin 1)); ("high", CStr "mmax")])
       (VLazy (make "Uniform" [("low", CNum (Fin 1))]) [("high", "mmax")])
  /\ get_processed_priors String.eqb (fun n => String.eqb n "Normal") make ["mmax"; "mmin"; "beta"] ex_c = None.
Proof.
  intros d make.
  assert (E : match_all String.eqb ["mmax"; "mmin"; "beta"] ex_c
    = [("mmax", CDict [("low", CNum (Fin 1)); ("dist", CStr "Uniform"); ("high", CNum (Fin 2))]);
       ("mmin", CDict [("dist", CStr "Uniform"); ("low", CNum (Fin 1)); ("high", CStr "mmax")]); ("beta", CNum (Fin 3))]).
  { unfold match_all, match_step. cbn. destruct (Req_EM_T 3 0); [lra|]. reflexivity. }
  assert (NDs : List.Forall (fun kv => proper_fields (snd kv)) (match_all String.eqb ["mmax"; "mmin"; "beta"] ex_c)).
  { rewrite E. repeat constructor; cbn; intuition discriminate. }
  split; [exact E|]. split; [exact NDs|]. split.
  - apply (sf_lazy _ make [] "Uniform" [("low", CNum (Fin 1)); ("high", CStr "mmax")]); auto; try discriminate.
    cbn [app]. apply split_rest; [discriminate|]. apply split_name. constructor.
  - apply C95_rejected_iff; [exact NDs|]. exists "mmax". eexists. split; [rewrite E; now left|].
    cbn [names_distribution]. intros (name & Hin & _ & Ha). apply String.eqb_eq in Ha. subst name.
    destruct Hin as [H|[H|[H|[]]]]; discriminate.
Qed.
