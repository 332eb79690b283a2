(** Proofs for the settings template: printing, splitting and reading JSON. *)
From Coq Require Import String Ascii List Bool Arith Lia.
From Verif Require Import Model_Template Spec_Template.
Import ListNotations.

(** ** Induction on JSON values *)
Section Ind.
  Variable P : json -> Prop.
  Hypothesis HN : forall t, P (JNum t).
  Hypothesis HT : forall s, P (JText s).
  Hypothesis HB : forall b, P (JBool b).
  Hypothesis HU : P JNull.
  Hypothesis HA : forall l, Forall P l -> P (JArr l).
  Hypothesis HD : forall d, Forall (fun kv => P (snd kv)) d -> P (JDict d).
  Fixpoint json_induction (v : json) : P v :=
    match v with
    | JNum t => HN t
    | JText s => HT s
    | JBool b => HB b
    | JNull => HU
    | JArr l => HA l ((fix go l := match l return Forall P l with [] => Forall_nil _ | x :: l' => Forall_cons x (json_induction x) (go l') end) l)
    | JDict d => HD d ((fix go d := match d return Forall (fun kv => P (snd kv)) d with
                                    | [] => Forall_nil _
                                    | kv :: d' => Forall_cons kv (json_induction (snd kv)) (go d') end) d)
    end.
End Ind.

(** ** Running the lexer over a prefix *)
Fixpoint run (s : state) (cs : chars) : option (list token * state) :=
  match cs with
  | [] => Some ([], s)
  | c :: cs' =>
      match next s c with
      | Some (ts, s') => match run s' cs' with Some (r, e) => Some (ts ++ r, e) | None => None end
      | None => None
      end
  end.

Lemma lex_app : forall a s b,
  lex s (a ++ b) = match run s a with
                   | Some (ts, e) => match lex e b with Some r => Some (ts ++ r) | None => None end
                   | None => None end.
Proof.
  induction a as [|c a IH]; intros s b; simpl.
  - destruct (lex s b); reflexivity.
  - destruct (next s c) as [[ts s']|]; [|reflexivity].
    rewrite IH. destruct (run s' a) as [[r e]|]; [|reflexivity].
    destruct (lex e b); [rewrite app_assoc|]; reflexivity.
Qed.

Lemma run_app : forall a s b,
  run s (a ++ b) = match run s a with
                   | Some (ts, e) => match run e b with Some (r, e') => Some (ts ++ r, e') | None => None end
                   | None => None end.
Proof.
  induction a as [|c a IH]; intros s b; simpl.
  - destruct (run s b) as [[? ?]|]; reflexivity.
  - destruct (next s c) as [[ts s']|]; [|reflexivity].
    rewrite IH. destruct (run s' a) as [[r e]|]; [|reflexivity].
    destruct (run e b) as [[? ?]|]; [rewrite app_assoc|]; reflexivity.
Qed.

(** after a line break the reader is outside of texts and words *)
Lemma next_nl : forall s ts e, next s nl = Some (ts, e) -> e = Out.
Proof. intros [| t | t | w] ts e H; cbv in H; congruence. Qed.

Lemma run_nl : forall a s ts e, run s (a ++ [nl]) = Some (ts, e) -> e = Out.
Proof.
  intros a s ts e H. rewrite run_app in H. destruct (run s a) as [[r e0]|]; [|discriminate].
  simpl in H. destruct (next e0 nl) as [[t1 e1]|] eqn:E; [|discriminate].
  apply next_nl in E. congruence.
Qed.

(** ** Gaps *)
Definition gap (hd : chars -> bool) (l : chars) : list chars := if hd l then [[]; l] else [l].

Lemma insert_gaps_flat : forall hs ls,
  insert_gaps hs ls = flat_map (gap (fun l => existsb (fun h => contains (quote :: h ++ [quote]) l) hs)) ls.
Proof.
  intros hs ls. unfold insert_gaps.
  enough (H : forall acc, fold_left (fun f l =>
    (if existsb (fun h => contains (quote :: h ++ [quote]) l) hs then f ++ [[]] else f) ++ [l]) ls acc
    = acc ++ flat_map (gap (fun l => existsb (fun h => contains (quote :: h ++ [quote]) l) hs)) ls)
    by (rewrite H; reflexivity).
  induction ls as [|l ls IH]; intros acc; cbn [fold_left flat_map].
  - rewrite app_nil_r. reflexivity.
  - rewrite IH. unfold gap at 2. destruct (existsb _ hs); rewrite <- !app_assoc; reflexivity.
Qed.

Lemma join_cons : forall sep x l, l <> [] -> join sep (x :: l) = x ++ sep ++ join sep l.
Proof. intros sep x [|y l] H; [congruence|reflexivity]. Qed.

Lemma gaps_nonempty : forall hd ls, ls <> [] -> flat_map (gap hd) ls <> [].
Proof. intros hd [|l ls] H; [congruence|]. simpl. unfold gap. destruct (hd l); simpl; discriminate. Qed.

Lemma lex_blank_line : forall b, lex Out (nl :: b) = lex Out b.
Proof. intros b. simpl. destruct (lex Out b); reflexivity. Qed.

Lemma gaps_lex : forall hd ls ts,
  lex Out (join [nl] ls) = Some ts -> lex Out (join [nl] (flat_map (gap hd) ls)) = Some ts.
Proof.
  intros hd ls. induction ls as [|l ls IH]; intros ts H; [exact H|].
  assert (K : lex Out (join [nl] (l :: flat_map (gap hd) ls)) = Some ts).
  { destruct ls as [|l2 ls]; [exact H|].
    rewrite join_cons by (apply gaps_nonempty; discriminate).
    rewrite join_cons in H by discriminate.
    rewrite app_assoc in H |- *. rewrite lex_app in H |- *.
    destruct (run Out (l ++ [nl])) as [[t1 e]|] eqn:E; [|discriminate].
    apply run_nl in E. subst e.
    destruct (lex Out (join [nl] (l2 :: ls))) as [r|]; [|discriminate].
    rewrite (IH r eq_refl). exact H. }
  cbn [flat_map]. unfold gap at 1. destruct (hd l); [|exact K].
  cbn [app]. rewrite join_cons by discriminate. cbn [app]. rewrite lex_blank_line. exact K.
Qed.

(** ** Splitting into lines and joining again *)
Lemma split_ne : forall s c cur, c <> nl -> splitlines_from cur (s ++ [c]) <> [].
Proof.
  induction s as [|x s IH]; intros c cur H; simpl.
  - destruct (Ascii.eqb_spec c nl); [contradiction|]. destruct cur; discriminate.
  - destruct (Ascii.eqb x nl); [discriminate|]. apply IH, H.
Qed.

Lemma split_join : forall s c cur, c <> nl -> join [nl] (splitlines_from cur (s ++ [c])) = cur ++ s ++ [c].
Proof.
  induction s as [|x s IH]; intros c cur H; cbn [app splitlines_from].
  - destruct (Ascii.eqb_spec c nl); [contradiction|].
    destruct (cur ++ [c]) eqn:E; [destruct cur; discriminate|]. reflexivity.
  - destruct (Ascii.eqb_spec x nl) as [->|N].
    + rewrite join_cons by (apply split_ne, H). rewrite IH by exact H. reflexivity.
    + rewrite IH by exact H. rewrite <- app_assoc. reflexivity.
Qed.

(** ** The tokens of a value *)
Fixpoint sep_tokens (l : list (list token)) : list token :=
  match l with [] => [] | [x] => x | x :: l' => x ++ TPunct "," :: sep_tokens l' end.
Fixpoint tokens (v : json) : list token :=
  match v with
  | JNum t => [TWord t]
  | JText s => [TText s]
  | JBool b => [TWord (text (if b then "true" else "false"))]
  | JNull => [TWord (text "null")]
  | JArr l => TPunct "[" :: sep_tokens (map tokens l) ++ [TPunct "]"]
  | JDict d => TPunct "{" :: sep_tokens (map (fun kv => TText (fst kv) :: TPunct ":" :: tokens (snd kv)) d) ++ [TPunct "}"]
  end.

(** [reads cs ts]: followed by a delimiter, the characters give these tokens *)
Definition delimiter (c : ascii) : Prop := is_blank c = true \/ is_punct c = true.
Definition reads (cs : chars) (ts : list token) : Prop :=
  forall c b, delimiter c -> lex Out (cs ++ c :: b) = match lex Out (c :: b) with Some r => Some (ts ++ r) | None => None end.

Lemma run_escape : forall s acc, printable s ->
  run (InText acc) (flat_map escape s) = Some ([], InText (acc ++ s)).
Proof.
  induction s as [|c s IH]; intros acc H.
  - simpl. rewrite app_nil_r. reflexivity.
  - inversion H as [|? ? Hc Hs]; subst. cbn [flat_map]. rewrite run_app.
    assert (E : run (InText acc) (escape c) = Some ([], InText (acc ++ [c]))).
    { unfold escape. destruct (Ascii.eqb c quote || Ascii.eqb c backslash) eqn:E.
      - cbn [run next]. cbn [Ascii.eqb]. change (Ascii.eqb backslash quote) with false.
        change (Ascii.eqb backslash backslash) with true. cbn iota. cbn [next]. rewrite E. reflexivity.
      - cbn [run next]. apply orb_false_iff in E. destruct E as [E1 E2]. rewrite E1, E2.
        destruct (Ascii.eqb_spec c nl) as [->|]; [|reflexivity].
        change (nat_of_ascii nl) with 10 in Hc. lia. }
    rewrite E, IH by exact Hs. rewrite <- app_assoc. reflexivity.
Qed.

Lemma run_text : forall s, printable s -> run Out (dump_text s) = Some ([TText s], Out).
Proof.
  intros s H. unfold dump_text. change (quote :: flat_map escape s ++ [quote]) with ([quote] ++ flat_map escape s ++ [quote]).
  rewrite run_app. change (run Out [quote]) with (Some (@nil token, InText [])). cbn iota beta.
  rewrite run_app, (run_escape s [] H). reflexivity.
Qed.

Lemma reads_run : forall cs ts, run Out cs = Some (ts, Out) -> reads cs ts.
Proof. intros cs ts H c b _. rewrite lex_app, H. reflexivity. Qed.

Lemma delimiter_not_word : forall c, delimiter c -> is_word c = false.
Proof. intros c [H|H]; unfold is_word; rewrite H; [|rewrite orb_true_r]; reflexivity. Qed.

Lemma run_word : forall t w, Forall (fun c => is_word c = true) t -> run (InWord w) t = Some ([], InWord (w ++ t)).
Proof.
  induction t as [|c t IH]; intros w H; [simpl; rewrite app_nil_r; reflexivity|].
  inversion H as [|? ? Hc Ht]; subst. cbn [run next]. rewrite Hc. rewrite IH by exact Ht.
  rewrite <- app_assoc. reflexivity.
Qed.

Lemma out_word : forall c, is_word c = true -> out c = Some ([], InWord [c]).
Proof.
  intros c H. unfold is_word in H. apply negb_true_iff in H. rewrite !orb_false_iff in H.
  destruct H as [[[H1 H2] H3] H4]. unfold out. rewrite H1, H2, H3, H4. reflexivity.
Qed.

Lemma reads_word : forall t, t <> [] -> Forall (fun c => is_word c = true) t -> reads t [TWord t].
Proof.
  intros [|a t] N H c b D; [congruence|]. inversion H as [|? ? Ha Ht]; subst.
  rewrite lex_app. cbn [run next]. rewrite (out_word a Ha), (run_word t [a] Ht). cbn iota beta.
  cbn [lex next]. rewrite (delimiter_not_word c D). cbn [app].
  destruct (out c) as [[ts s']|]; [|reflexivity]. destruct (lex s' b); reflexivity.
Qed.

Lemma lex_spaces : forall n b, lex Out (repeat space n ++ b) = lex Out b.
Proof. induction n as [|n IH]; intros b; [reflexivity|]. cbn [repeat app lex next]. change (out space) with (Some (@nil token, Out)). cbn iota beta. rewrite IH. destruct (lex Out b); reflexivity. Qed.

Lemma lex_break : forall n b, lex Out (line_break n ++ b) = lex Out b.
Proof. intros n b. unfold line_break. cbn [app]. rewrite lex_blank_line. apply lex_spaces. Qed.

Lemma lex_punct : forall c b, is_blank c = false -> is_punct c = true ->
  lex Out (c :: b) = match lex Out b with Some r => Some (TPunct c :: r) | None => None end.
Proof. intros c b H1 H2. cbn [lex next]. unfold out. rewrite H1, H2. destruct (lex Out b); reflexivity. Qed.

Lemma lex_comma : forall n b, lex Out ((text "," ++ line_break n) ++ b) = match lex Out b with Some r => Some (TPunct "," :: r) | None => None end.
Proof. intros n b. rewrite <- app_assoc. cbn [text list_ascii_of_string app]. rewrite lex_punct by reflexivity. rewrite lex_break. reflexivity. Qed.

Lemma reads_join : forall n (l : list (chars * list token)), l <> [] ->
  Forall (fun p => reads (fst p) (snd p)) l ->
  reads (join (text "," ++ line_break n) (map fst l)) (sep_tokens (map snd l)).
Proof.
  intros n l. induction l as [|[x tx] l IH]; intros N F; [congruence|].
  inversion F as [|? ? Hx Hl]; subst. destruct l as [|y l]; [exact Hx|].
  specialize (IH ltac:(discriminate) Hl). intros c b D.
  cbn [map fst snd]. rewrite join_cons by discriminate.
  change (sep_tokens (tx :: snd y :: map snd l)) with (tx ++ TPunct "," :: sep_tokens (map snd (y :: l))).
  rewrite <- !app_assoc.
  change (text "," ++ line_break n ++ ?z) with (","%char :: (line_break n ++ z)).
  rewrite (Hx ","%char _ (or_intror eq_refl)). rewrite lex_punct by reflexivity. rewrite lex_break.
  change (fst y :: map fst l) with (map fst (y :: l)). rewrite (IH c b D).
  destruct (lex Out (c :: b)) as [r|]; [|reflexivity].
  rewrite <- app_assoc. reflexivity.
Qed.

Lemma fold_Forall : forall A (P : A -> Prop) l, fold_right (fun x acc => P x /\ acc) True l -> Forall P l.
Proof. induction l as [|x l IH]; intros H; constructor; [apply H|apply IH, H]. Qed.

Lemma reads_dumps : forall v n, jsonable v -> reads (dumps n v) (tokens v).
Proof.
  intros v. induction v as [t|s|b| |l IH|d IH] using json_induction; intros n W.
  - destruct W as [N [F _]]. apply reads_word; assumption.
  - apply reads_run, run_text, W.
  - apply reads_word; destruct b; try discriminate; repeat constructor.
  - apply reads_word; [discriminate|repeat constructor].
  - destruct l as [|x l]; [apply reads_run; reflexivity|].
    set (L := x :: l) in *. assert (NE : L <> []) by discriminate.
    change (dumps n (JArr L)) with (text "[" ++ line_break (S n) ++ join (text "," ++ line_break (S n)) (map (dumps (S n)) L) ++ line_break n ++ text "]").
    cbn [jsonable] in W. apply fold_Forall in W.
    assert (J : reads (join (text "," ++ line_break (S n)) (map (dumps (S n)) L)) (sep_tokens (map tokens L))).
    { replace (map (dumps (S n)) L) with (map fst (map (fun v => (dumps (S n) v, tokens v)) L)) by (rewrite map_map; reflexivity).
      replace (map tokens L) with (map snd (map (fun v => (dumps (S n) v, tokens v)) L)) by (rewrite map_map; reflexivity).
      apply reads_join; [destruct L; [congruence|discriminate]|].
      apply Forall_map. rewrite Forall_forall in IH, W |- *. intros y Hy. apply IH; [exact Hy|apply W, Hy]. }
    clearbody L. intros c b D. rewrite <- !app_assoc. change (text "[" ++ ?z) with ("["%char :: z).
    rewrite lex_punct by reflexivity. rewrite lex_break.
    change (line_break n ++ text "]" ++ c :: b) with (nl :: (repeat space (4 * n) ++ "]"%char :: c :: b)).
    rewrite (J nl _ (or_introl eq_refl)). rewrite lex_blank_line, lex_spaces, lex_punct by reflexivity.
    destruct (lex Out (c :: b)) as [r|]; [|reflexivity]. cbn [tokens app]. rewrite <- app_assoc. reflexivity.
  - destruct d as [|x l]; [apply reads_run; reflexivity|].
    set (L := x :: l) in *. assert (NE : L <> []) by discriminate.
    set (pr := fun kv : chars * json => dump_text (fst kv) ++ text ": " ++ dumps (S n) (snd kv)).
    set (tk := fun kv : chars * json => TText (fst kv) :: TPunct ":" :: tokens (snd kv)).
    change (dumps n (JDict L)) with (text "{" ++ line_break (S n) ++ join (text "," ++ line_break (S n)) (map pr L) ++ line_break n ++ text "}").
    cbn [jsonable] in W. apply fold_Forall in W.
    assert (J : reads (join (text "," ++ line_break (S n)) (map pr L)) (sep_tokens (map tk L))).
    { replace (map pr L) with (map fst (map (fun v => (pr v, tk v)) L)) by (rewrite map_map; reflexivity).
      replace (map tk L) with (map snd (map (fun v => (pr v, tk v)) L)) by (rewrite map_map; reflexivity).
      apply reads_join; [destruct L; [congruence|discriminate]|].
      apply Forall_map. rewrite Forall_forall in IH, W |- *. intros y Hy. cbn [fst snd].
      destruct (W y Hy) as [Wk Wv]. specialize (IH y Hy (S n) Wv). intros c b D. unfold pr, tk.
      rewrite <- !app_assoc. rewrite lex_app, (run_text _ Wk).
      change (text ": " ++ ?z) with (":"%char :: space :: z). rewrite lex_punct by reflexivity.
      change (space :: dumps (S n) (snd y) ++ c :: b) with (repeat space 1 ++ dumps (S n) (snd y) ++ c :: b).
      rewrite lex_spaces. rewrite (IH c b D).
      destruct (lex Out (c :: b)); reflexivity. }
    clearbody L. intros c b D. rewrite <- !app_assoc. change (text "{" ++ ?z) with ("{"%char :: z).
    rewrite lex_punct by reflexivity. rewrite lex_break.
    change (line_break n ++ text "}" ++ c :: b) with (nl :: (repeat space (4 * n) ++ "}"%char :: c :: b)).
    rewrite (J nl _ (or_introl eq_refl)). rewrite lex_blank_line, lex_spaces, lex_punct by reflexivity.
    destruct (lex Out (c :: b)) as [r|]; [|reflexivity]. cbn [tokens app]. rewrite <- app_assoc. reflexivity.
Qed.

Lemma dumps_end : forall d, exists u, dumps 0 (JDict d) = u ++ ["}"%char].
Proof.
  intros [|x d]; [exists ["{"%char]; reflexivity|].
  cbn [dumps]. rewrite !app_assoc. eexists. reflexivity.
Qed.

(** at the end of a file *)
Lemma lex_end : forall d, jsonable (JDict d) -> lex Out (dumps 0 (JDict d)) = Some (tokens (JDict d)).
Proof.
  intros d W. pose proof (reads_dumps _ 0 W nl [] (or_introl eq_refl)) as H.
  rewrite lex_app in H. change (lex Out [nl]) with (Some (@nil token)) in H. cbn iota in H. rewrite app_nil_r in H.
  rewrite <- (app_nil_r (dumps 0 (JDict d))). rewrite lex_app.
  destruct (run Out (dumps 0 (JDict d))) as [[ts e]|] eqn:E; [|discriminate].
  destruct (dumps_end d) as [u Hu]. rewrite Hu, run_app in E.
  destruct (run Out u) as [[r0 e0]|]; [|discriminate]. cbn [run] in E.
  destruct (next e0 "}"%char) as [[t1 e1]|] eqn:E1; [|discriminate]. injection E as <- <-.
  destruct e0 as [| t | t | w]; cbv in E1; try discriminate; injection E1 as <- <-;
    cbn [lex] in H |- *; try exact H; discriminate.
Qed.

(** ** Parsing the tokens *)
Fixpoint cost (v : json) : nat :=
  match v with
  | JArr l => S (list_sum (map (fun x => S (cost x)) l))
  | JDict d => S (list_sum (map (fun kv => S (cost (snd kv))) d))
  | _ => 1
  end.

Lemma same_text_spec : forall a b, same_text a b = true <-> a = b.
Proof.
  induction a as [|x a IH]; intros [|y b]; simpl; split; intros H; try discriminate; try reflexivity.
  - apply andb_true_iff in H. destruct H as [H1 H2]. apply Ascii.eqb_eq in H1. apply IH in H2. congruence.
  - injection H as -> ->. rewrite Ascii.eqb_refl. simpl. apply IH. reflexivity.
Qed.

Lemma word_number : forall t, number_text t -> word_value t = JNum t.
Proof.
  intros t (_ & _ & H1 & H2 & H3). unfold word_value.
  destruct (same_text t (text "true")) eqn:E1; [apply same_text_spec in E1; contradiction|].
  destruct (same_text t (text "false")) eqn:E2; [apply same_text_spec in E2; contradiction|].
  destruct (same_text t (text "null")) eqn:E3; [apply same_text_spec in E3; contradiction|]. reflexivity.
Qed.

Definition parses (v : json) : Prop := forall n r, cost v <= n -> value n (tokens v ++ r) = Some (v, r).

Lemma parses_items : forall l n r, l <> [] -> Forall parses l ->
  list_sum (map (fun x => S (cost x)) l) <= n ->
  items n (sep_tokens (map tokens l) ++ TPunct "]" :: r) = Some (l, r).
Proof.
  induction l as [|v l IH]; intros n r N F C; [congruence|].
  inversion F as [|? ? Hv Hl]; subst. change (list_sum (map ?f (v :: l))) with (S (cost v) + list_sum (map f l)) in C.
  destruct n as [|n]; [lia|]. cbn [items].
  destruct l as [|w l].
  - cbn [map sep_tokens]. rewrite (Hv n) by lia. reflexivity.
  - change (sep_tokens (map tokens (v :: w :: l))) with (tokens v ++ TPunct "," :: sep_tokens (map tokens (w :: l))).
    rewrite <- app_assoc. rewrite (Hv n) by lia. cbn [app].
    rewrite IH; [reflexivity|discriminate|exact Hl|lia].
Qed.

Lemma parses_members : forall d n r, d <> [] -> Forall (fun kv => parses (snd kv)) d ->
  list_sum (map (fun kv : chars * json => S (cost (snd kv))) d) <= n ->
  members n (sep_tokens (map (fun kv => TText (fst kv) :: TPunct ":" :: tokens (snd kv)) d) ++ TPunct "}" :: r) = Some (d, r).
Proof.
  induction d as [|[k v] d IH]; intros n r N F C; [congruence|].
  inversion F as [|? ? Hv Hl]; subst. cbn [snd] in Hv.
  change (list_sum (map ?f ((k, v) :: d))) with (S (cost v) + list_sum (map f d)) in C.
  destruct n as [|n]; [lia|]. cbn [members].
  destruct d as [|w d].
  - cbn [map sep_tokens fst snd app]. rewrite (Hv n) by lia. reflexivity.
  - set (tk := fun kv : chars * json => TText (fst kv) :: TPunct ":" :: tokens (snd kv)) in *.
    change (sep_tokens (map tk ((k, v) :: w :: d))) with (TText k :: TPunct ":" :: tokens v ++ TPunct "," :: sep_tokens (map tk (w :: d))).
    cbn [app]. rewrite <- app_assoc. rewrite (Hv n) by lia. cbn [app].
    rewrite IH; [reflexivity|discriminate|exact Hl|lia].
Qed.

(** the first token of a value closes nothing *)
Lemma tokens_first : forall v, exists t ts, tokens v = t :: ts /\ t <> TPunct "]" /\ t <> TPunct "}".
Proof. intros []; cbn [tokens]; eexists; eexists; (split; [reflexivity|split; discriminate]). Qed.

Lemma value_open : forall n t ts, t <> TPunct "]" ->
  value (S n) (TPunct "[" :: t :: ts) = match items n (t :: ts) with Some (l, r') => Some (JArr l, r') | None => None end.
Proof.
  intros n t ts H. destruct t as [c|s|w]; [|reflexivity|reflexivity].
  destruct c as [[] [] [] [] [] [] [] []]; try reflexivity. congruence.
Qed.

Lemma parses_all : forall v, jsonable v -> parses v.
Proof.
  intros v. induction v as [t|s|b| |l IH|d IH] using json_induction; intros W n r C;
    (destruct n as [|n]; [cbn [cost] in C; lia|]).
  - cbn [tokens app value]. rewrite (word_number t W). reflexivity.
  - reflexivity.
  - destruct b; reflexivity.
  - reflexivity.
  - cbn [jsonable] in W. apply fold_Forall in W. destruct l as [|x l]; [reflexivity|].
    assert (F : Forall parses (x :: l)).
    { rewrite Forall_forall in IH, W |- *. intros y Hy. apply IH; [exact Hy|apply W, Hy]. }
    pose proof (parses_items (x :: l) n r ltac:(discriminate) F ltac:(cbn [cost] in C; lia)) as E.
    cbn [tokens app]. rewrite <- app_assoc. cbn [app].
    destruct (tokens_first x) as (t & ts & Et & T1 & _).
    assert (G : exists ts', sep_tokens (map tokens (x :: l)) ++ TPunct "]" :: r = t :: ts').
    { destruct l; cbn [map sep_tokens]; rewrite Et; eexists; reflexivity. }
    destruct G as [ts' G]. rewrite G in E |- *. rewrite value_open by exact T1. rewrite E. reflexivity.
  - cbn [jsonable] in W. apply fold_Forall in W. destruct d as [|x d]; [reflexivity|].
    assert (F : Forall (fun kv => parses (snd kv)) (x :: d)).
    { rewrite Forall_forall in IH, W |- *. intros y Hy. apply IH; [exact Hy|apply W, Hy]. }
    pose proof (parses_members (x :: d) n r ltac:(discriminate) F ltac:(cbn [cost] in C; lia)) as E.
    cbn [tokens app]. rewrite <- app_assoc. cbn [app].
    assert (G : exists ts', sep_tokens (map (fun kv : chars * json => TText (fst kv) :: TPunct ":" :: tokens (snd kv)) (x :: d)) ++ TPunct "}" :: r = TText (fst x) :: ts').
    { destruct d; cbn [map sep_tokens]; eexists; reflexivity. }
    destruct G as [ts' G]. rewrite G in E |- *. cbn [value]. rewrite E. reflexivity.
Qed.

Lemma sep_length : forall A (f : A -> list token) (g : A -> nat) l,
  Forall (fun x => g x <= 2 * length (f x)) l -> list_sum (map (fun x => S (g x)) l) <= 2 * length (sep_tokens (map f l)) + 1.
Proof.
  intros A f g. induction l as [|x l IH]; intros F; [simpl; lia|]. inversion F as [|? ? Hx Hl]; subst.
  specialize (IH Hl). change (list_sum (map ?h (x :: l))) with (S (g x) + list_sum (map h l)).
  destruct l as [|y l]; [simpl; lia|].
  change (sep_tokens (map f (x :: y :: l))) with (f x ++ TPunct "," :: sep_tokens (map f (y :: l))).
  rewrite app_length. cbn [length]. lia.
Qed.

Lemma cost_tokens : forall v, cost v <= 2 * length (tokens v).
Proof.
  intros v. induction v as [t|s|b| |l IH|d IH] using json_induction; try (simpl; lia).
  - pose proof (sep_length _ tokens cost l IH) as H. cbn [cost tokens length]. rewrite app_length. cbn [length]. lia.
  - pose proof (sep_length _ (fun kv : chars * json => TText (fst kv) :: TPunct ":" :: tokens (snd kv)) (fun kv => cost (snd kv)) d) as H.
    cbn [cost tokens length]. rewrite app_length. cbn [length].
    assert (F : Forall (fun kv : chars * json => cost (snd kv) <= 2 * length (TText (fst kv) :: TPunct ":" :: tokens (snd kv))) d).
    { eapply Forall_impl; [|exact IH]. intros kv K. cbn beta in K. cbn [length]. lia. }
    specialize (H F). lia.
Qed.

Lemma load_tokens : forall s v, jsonable v -> lex Out s = Some (tokens v) -> json_load s = Some v.
Proof.
  intros s v W H. unfold json_load. rewrite H.
  pose proof (parses_all v W (2 * length (tokens v) + 1) []) as E. rewrite app_nil_r in E.
  rewrite E; [reflexivity|]. pose proof (cost_tokens v). lia.
Qed.

Lemma reads_back : forall hs d, jsonable (JDict d) ->
  json_load (join [nl] (insert_gaps hs (splitlines (dumps 0 (JDict d))))) = Some (JDict d).
Proof.
  intros hs d W. apply load_tokens; [exact W|]. rewrite insert_gaps_flat. apply gaps_lex.
  destruct (dumps_end d) as [u Hu]. unfold splitlines. rewrite Hu, split_join by discriminate. cbn [app].
  rewrite <- Hu. apply lex_end, W.
Qed.

(** ** Where the gaps are *)
Lemma starts_spec : forall p s, starts p s = true <-> exists b, s = p ++ b.
Proof.
  induction p as [|x p IH]; intros s; simpl.
  - split; [intros _; exists s; reflexivity|reflexivity].
  - destruct s as [|y s]; [split; [discriminate|intros [b H]; discriminate]|].
    rewrite andb_true_iff, Ascii.eqb_eq, IH. split.
    + intros [-> [b ->]]. exists b. reflexivity.
    + intros [b H]. injection H as -> ->. split; [reflexivity|exists b; reflexivity].
Qed.

Lemma contains_spec : forall p s, contains p s = true <-> exists a b, s = a ++ p ++ b.
Proof.
  intros p s. induction s as [|c s IH]; cbn [contains]; rewrite orb_true_iff, starts_spec.
  - split.
    + intros [[b H]|H]; [exists [], b; exact H|discriminate].
    + intros (a & b & H). left. destruct a; [exists b; exact H|discriminate].
  - rewrite IH. split.
    + intros [[b H]|(a & b & H)]; [exists [], b; exact H|exists (c :: a), b; rewrite H; reflexivity].
    + intros (a & b & H). destruct a as [|x a]; [left; exists b; exact H|].
      injection H as -> H. right. exists a, b. exact H.
Qed.

(** the first quotation mark of a line *)
Lemma first_quote : forall a a' b b', ~ In quote a -> ~ In quote a' -> a ++ quote :: b = a' ++ quote :: b' -> a = a' /\ b = b'.
Proof.
  induction a as [|x a IH]; intros [|y a'] b b' H H' E; cbn [app] in E.
  - injection E as ->. split; reflexivity.
  - injection E as <- _. destruct H'. left. reflexivity.
  - injection E as -> _. destruct H. left. reflexivity.
  - injection E as -> E. destruct (IH a' b b') as [-> ->]; auto.
    + intros I. apply H. right. exact I.
    + intros I. apply H'. right. exact I.
Qed.

Lemma no_quote_contains : forall h l, ~ In quote l -> contains (quote :: h ++ [quote]) l = false.
Proof.
  intros h l N. destruct (contains _ l) eqn:E; [|reflexivity]. apply contains_spec in E.
  destruct E as (a & b & ->). destruct N. apply in_or_app. right. left. reflexivity.
Qed.

Lemma in_split_first : forall l, In quote l -> exists a b, l = a ++ quote :: b /\ ~ In quote a.
Proof.
  induction l as [|c l IH]; intros H; [destruct H|].
  destruct (ascii_dec c quote) as [->|N]; [exists [], l; split; [reflexivity|intros []]|].
  destruct H as [H|H]; [contradiction|]. destruct (IH H) as (a & b & -> & Na).
  exists (c :: a), b. split; [reflexivity|]. intros [I|I]; [contradiction|exact (Na I)].
Qed.

(** a quoted name after the first quotation mark *)
Lemma contains_step : forall h u rest, ~ In quote h -> ~ In quote u ->
  contains (quote :: h ++ [quote]) (u ++ quote :: rest) = starts (h ++ [quote]) rest || contains (quote :: h ++ [quote]) rest.
Proof.
  intros h u rest Hh Hu. apply eq_true_iff_eq. rewrite orb_true_iff, !contains_spec, starts_spec. split.
  - intros (a & b & E). cbn [app] in E. destruct (in_dec ascii_dec quote a) as [Ia|Na].
    + apply in_split_first in Ia. destruct Ia as (a1 & a2 & -> & N1). rewrite <- app_assoc in E. cbn [app] in E.
      destruct (first_quote _ _ _ _ Hu N1 E) as [_ E2]. right. exists a2, b. exact E2.
    + destruct (first_quote _ _ _ _ Hu Na E) as [_ E2]. left. exists b. exact E2.
  - intros [[b ->]|(a & b & ->)]; [exists u, b; reflexivity|].
    exists (u ++ quote :: a), b. rewrite <- app_assoc. reflexivity.
Qed.

Lemma starts_quote : forall h k w, ~ In quote h -> ~ In quote k -> (starts (h ++ [quote]) (k ++ quote :: w) = true <-> h = k).
Proof.
  intros h k w Hh Hk. rewrite starts_spec. split.
  - intros [b E]. rewrite <- app_assoc in E. cbn [app] in E. destruct (first_quote _ _ _ _ Hk Hh E) as [E1 _]. congruence.
  - intros ->. exists w. rewrite <- app_assoc. reflexivity.
Qed.

Lemma starts_none : forall h w, ~ In quote w -> starts (h ++ [quote]) w = false.
Proof.
  intros h w N. destruct (starts _ w) eqn:E; [|reflexivity]. apply starts_spec in E. destruct E as [b ->].
  destruct N. rewrite <- app_assoc. apply in_or_app. right. left. reflexivity.
Qed.

Lemma contains_two : forall h u k w, ~ In quote h -> ~ In quote u -> ~ In quote k -> ~ In quote w ->
  (contains (quote :: h ++ [quote]) (u ++ quote :: k ++ quote :: w) = true <-> h = k).
Proof.
  intros h u k w Hh Hu Hk Hw. rewrite contains_step by assumption. rewrite (contains_step h k w) by assumption.
  rewrite (starts_none h w Hw), (no_quote_contains h w Hw), orb_false_r. apply starts_quote; assumption.
Qed.

Lemma contains_four : forall h u k x v w,
  ~ In quote h -> ~ In quote u -> ~ In quote k -> ~ In quote x -> ~ In quote v -> ~ In quote w -> h <> x -> h <> v ->
  (contains (quote :: h ++ [quote]) (u ++ quote :: k ++ quote :: x ++ quote :: v ++ quote :: w) = true <-> h = k).
Proof.
  intros h u k x v w Hh Hu Hk Hx Hv Hw N1 N2. rewrite contains_step by assumption.
  rewrite (contains_step h k) by assumption.
  destruct (starts (h ++ [quote]) (x ++ quote :: v ++ quote :: w)) eqn:E1; [apply starts_quote in E1; tauto|].
  destruct (contains (quote :: h ++ [quote]) (x ++ quote :: v ++ quote :: w)) eqn:E2; [apply contains_two in E2; tauto|].
  rewrite !orb_false_r. apply starts_quote; assumption.
Qed.

(** ** Lines *)
Lemma lines_ne : forall s, lines_of s <> [].
Proof. induction s as [|c s IH]; simpl; [discriminate|]. destruct (Ascii.eqb c nl); [discriminate|]. destruct (lines_of s); discriminate. Qed.

Lemma lines_app : forall a b, lines_of (a ++ nl :: b) = lines_of a ++ lines_of b.
Proof.
  induction a as [|c a IH]; intros b; cbn [app lines_of]; [reflexivity|].
  rewrite IH. destruct (Ascii.eqb c nl); [reflexivity|].
  pose proof (lines_ne a). destruct (lines_of a); [congruence|]. reflexivity.
Qed.

Lemma lines_one : forall s, ~ In nl s -> lines_of s = [s].
Proof.
  induction s as [|c s IH]; intros N; [reflexivity|]. simpl.
  destruct (Ascii.eqb_spec c nl) as [->|_]; [destruct N; left; reflexivity|].
  rewrite IH by (intros I; apply N; right; exact I). reflexivity.
Qed.

Lemma lines_prefix : forall p s l ls, ~ In nl p -> lines_of s = l :: ls -> lines_of (p ++ s) = (p ++ l) :: ls.
Proof.
  induction p as [|c p IH]; intros s l ls N E; [exact E|]. cbn [app lines_of].
  destruct (Ascii.eqb_spec c nl) as [->|_]; [destruct N; left; reflexivity|].
  rewrite (IH s l ls) by (auto; intros I; apply N; right; exact I). reflexivity.
Qed.

Lemma lines_chars : forall s, Forall (fun l => ~ In nl l /\ forall c, In c l -> In c s) (lines_of s).
Proof.
  induction s as [|c s IH]; simpl; [constructor; [split; intros; auto|constructor]|].
  destruct (Ascii.eqb_spec c nl) as [->|N].
  - constructor; [split; [intros []|intros ? []]|]. eapply Forall_impl; [|exact IH].
    intros l [A B]. split; [exact A|]. intros x I. right. apply B, I.
  - destruct (lines_of s) as [|l ls]; [constructor; [|constructor]; split; [intros [I|[]]; congruence|intros x [I|[]]; left; exact I]|].
    inversion IH as [|? ? [A B] F]; subst. constructor.
    + split; [intros [I|I]; [congruence|exact (A I)]|]. intros x [I|I]; [left; exact I|right; apply B, I].
    + eapply Forall_impl; [|exact F]. intros m [A' B']. split; [exact A'|]. intros x I. right. apply B', I.
Qed.

Lemma lines_join : forall ls, ls <> [] -> Forall (fun l => ~ In nl l) ls -> lines_of (join [nl] ls) = ls.
Proof.
  induction ls as [|l ls IH]; intros N F; [congruence|]. inversion F as [|? ? Hl Hls]; subst.
  destruct ls as [|m ls]; [apply lines_one, Hl|].
  rewrite join_cons by discriminate. cbn [app]. rewrite lines_app, (lines_one l Hl), IH by (auto; discriminate). reflexivity.
Qed.

Lemma split_lines : forall s c cur, c <> nl -> ~ In nl cur -> splitlines_from cur (s ++ [c]) = lines_of (cur ++ s ++ [c]).
Proof.
  induction s as [|x s IH]; intros c cur H N; cbn [app splitlines_from].
  - destruct (Ascii.eqb_spec c nl); [contradiction|].
    rewrite lines_one; [|rewrite in_app_iff; intros [I|[I|[]]]; [exact (N I)|congruence]].
    destruct (cur ++ [c]) eqn:E; [destruct cur; discriminate|reflexivity].
  - destruct (Ascii.eqb_spec x nl) as [->|M].
    + rewrite lines_app, (lines_one cur N), IH by auto. reflexivity.
    + rewrite IH; [|exact H|rewrite in_app_iff; intros [I|[I|[]]]; [exact (N I)|congruence]].
      rewrite <- app_assoc. reflexivity.
Qed.

(** ** One entry *)
Definition header_line (hs : list chars) (l : chars) : bool := existsb (fun h => contains (quote :: h ++ [quote]) l) hs.

Lemma plain_dump : forall s, plain_text s -> dump_text s = quote :: s ++ [quote].
Proof.
  intros s (_ & Q & B). unfold dump_text. f_equal. f_equal.
  induction s as [|c s IH]; [reflexivity|]. cbn [flat_map]. unfold escape at 1.
  destruct (Ascii.eqb_spec c quote) as [->|_]; [destruct Q; left; reflexivity|].
  destruct (Ascii.eqb_spec c backslash) as [->|_]; [destruct B; left; reflexivity|].
  cbn [orb app]. f_equal. apply IH; intros I; [apply Q|apply B]; right; exact I.
Qed.

Lemma plain_no_nl : forall s, plain_text s -> ~ In nl s.
Proof. intros s (P & _) I. unfold printable in P. rewrite Forall_forall in P. specialize (P _ I). change (nat_of_ascii nl) with 10 in P. lia. Qed.

Lemma word_no_quote : forall t, Forall (fun c => is_word c = true) t -> ~ In quote t.
Proof. intros t F I. rewrite Forall_forall in F. specialize (F _ I). discriminate. Qed.

Lemma break_no_quote : forall n, ~ In quote (line_break n).
Proof. intros n [I|I]; [discriminate|]. apply repeat_spec in I. discriminate. Qed.

Lemma scalar_no_quote : forall v n, scalar v -> ~ In quote (dumps n v).
Proof.
  intros [t|s|[]| |l|d] n H; try destruct H; cbn [dumps].
  - apply word_no_quote. tauto.
  - apply word_no_quote. repeat constructor.
  - apply word_no_quote. repeat constructor.
  - apply word_no_quote. repeat constructor.
Qed.

Lemma join_no_quote : forall sep l, ~ In quote sep -> Forall (fun x => ~ In quote x) l -> ~ In quote (join sep l).
Proof.
  intros sep l N F. induction F as [|x l Hx F IH]; [intros []|].
  destruct l as [|y l]; [exact Hx|]. rewrite join_cons by discriminate. rewrite !in_app_iff. tauto.
Qed.

Lemma array_no_quote : forall l n, Forall scalar l -> ~ In quote (dumps n (JArr l)).
Proof.
  intros l n F. destruct l as [|x l]; [intros [I|[I|[]]]; discriminate|].
  set (L := x :: l) in *.
  change (dumps n (JArr L)) with (text "[" ++ line_break (S n) ++ join (text "," ++ line_break (S n)) (map (dumps (S n)) L) ++ line_break n ++ text "]").
  rewrite !in_app_iff. intros [I|[I|[I|[I|I]]]].
  - destruct I as [I|[]]. discriminate.
  - exact (break_no_quote _ I).
  - revert I. apply join_no_quote.
    + rewrite in_app_iff. intros [[I|[]]|I]; [discriminate|exact (break_no_quote _ I)].
    + apply Forall_map. eapply Forall_impl; [|exact F]. intros v Hv. apply scalar_no_quote, Hv.
  - exact (break_no_quote _ I).
  - destruct I as [I|[]]. discriminate.
Qed.

Lemma headers_plain : forall h, In h section_headers -> ~ In quote h /\ h <> text ": ".
Proof.
  intros h H. assert (B : forallb (fun h => negb (existsb (Ascii.eqb quote) h) && negb (same_text h (text ": "))) section_headers = true) by reflexivity.
  rewrite forallb_forall in B. specialize (B h H). apply andb_true_iff in B. destruct B as [B1 B2]. split.
  - intros I. apply negb_true_iff in B1. assert (existsb (Ascii.eqb quote) h = true); [|congruence].
    apply existsb_exists. exists quote. split; [exact I|apply Ascii.eqb_refl].
  - intros ->. discriminate B2.
Qed.

Lemma header_exists : forall (f : chars -> bool) k, (forall h, In h section_headers -> (f h = true <-> h = k)) ->
  (existsb f section_headers = true <-> In k section_headers).
Proof.
  intros f k H. rewrite existsb_exists. split.
  - intros (h & I & E). apply H in E; [congruence|exact I].
  - intros I. exists k. split; [exact I|]. apply H; auto.
Qed.

Lemma no_header_lines : forall ls, Forall (fun l => ~ In quote l) ls -> flat_map (gap (header_line section_headers)) ls = ls.
Proof.
  intros ls F. induction F as [|l ls Hl F IH]; [reflexivity|]. cbn [flat_map]. rewrite IH. unfold gap.
  destruct (header_line section_headers l) eqn:E; [|reflexivity].
  unfold header_line in E. apply existsb_exists in E. destruct E as (h & _ & E). rewrite no_quote_contains in E by exact Hl. discriminate.
Qed.

Lemma entry_lines : forall k v c, plain_text k -> template_value v -> c = text "" \/ c = text "," ->
  exists g, flat_map (gap (header_line section_headers)) (lines_of (text "    " ++ dump_text k ++ text ": " ++ dumps 1 v ++ c))
    = g ++ lines_of (text "    " ++ dump_text k ++ text ": " ++ dumps 1 v ++ c)
    /\ (In k section_headers -> g = [[]]) /\ (~ In k section_headers -> g = []).
Proof.
  intros k v c Hk Hv Hc. pose proof Hk as (_ & Qk & _). pose proof (plain_no_nl k Hk) as Nk.
  assert (Qc : ~ In quote c) by (destruct Hc as [E|E]; rewrite E; [intros []|intros [I|[]]; discriminate]).
  assert (Nc : ~ In nl c) by (destruct Hc as [E|E]; rewrite E; [intros []|intros [I|[]]; discriminate]).
  assert (Q4 : ~ In quote (text "    ")) by (intros I; cbn in I; repeat destruct I as [I|I]; discriminate || exact I).
  assert (N4 : ~ In nl (text "    ")) by (intros I; cbn in I; repeat destruct I as [I|I]; discriminate || exact I).
  assert (Q2 : ~ In quote (text ": ")) by (intros I; cbn in I; repeat destruct I as [I|I]; discriminate || exact I).
  assert (N2 : ~ In nl (text ": ")) by (intros I; cbn in I; repeat destruct I as [I|I]; discriminate || exact I).
  assert (M : exists l ls, lines_of (text "    " ++ dump_text k ++ text ": " ++ dumps 1 v ++ c) = l :: ls
     /\ (header_line section_headers l = true <-> In k section_headers) /\ Forall (fun l => ~ In quote l) ls).
  { rewrite (plain_dump k Hk).
    assert (NP : ~ In nl (text "    " ++ (quote :: k ++ [quote]) ++ text ": ")).
    { rewrite !in_app_iff. cbn [In]. rewrite !in_app_iff. intros [I|[[I|[I|[I|[]]]]|I]]; try tauto; discriminate. }
    assert (NQ : (forall n, ~ In quote (dumps n v)) -> exists l ls,
      lines_of (text "    " ++ (quote :: k ++ [quote]) ++ text ": " ++ dumps 1 v ++ c) = l :: ls
     /\ (header_line section_headers l = true <-> In k section_headers) /\ Forall (fun l => ~ In quote l) ls).
    { intros Qv. destruct (lines_of (dumps 1 v ++ c)) as [|l ls] eqn:E; [exfalso; exact (lines_ne _ E)|].
      pose proof (lines_chars (dumps 1 v ++ c)) as F. rewrite E in F. inversion F as [|? ? [_ Bl] Fls]; subst.
      assert (Qb : ~ In quote (dumps 1 v ++ c)) by (rewrite in_app_iff; intros [I|I]; [exact (Qv 1 I)|exact (Qc I)]).
      pose proof (lines_prefix _ _ _ _ NP E) as E'. rewrite <- !app_assoc in E'.
      eexists; eexists; split; [exact E'|]. split.
      - unfold header_line. apply header_exists. intros h Ih. destruct (headers_plain h Ih) as [Qh _].
        cbn [app]. rewrite <- !app_assoc. cbn [app].
        apply (contains_two h (text "    ") k (":"%char :: " "%char :: l)); auto.
        intros [I|[I|I]]; [discriminate|discriminate|]. apply Qb, Bl, I.
      - eapply Forall_impl; [|exact Fls]. intros m [_ Bm] I. apply Qb, Bm, I. }
    destruct v as [t|s|b| |l|d]; try (apply NQ; intros n; apply scalar_no_quote; exact Hv).
    2: { apply NQ. intros n. apply array_no_quote, Hv. }
    clear NQ. destruct Hv as [Hs Ns]. pose proof Hs as (_ & Qs & _).
    cbn [dumps]. rewrite (plain_dump s Hs).
    exists (text "    " ++ (quote :: k ++ [quote]) ++ text ": " ++ (quote :: s ++ [quote]) ++ c), [].
    split; [|split; [|constructor]].
    - apply lines_one. pose proof (plain_no_nl s Hs) as Nss. rewrite !in_app_iff. cbn [In]. rewrite !in_app_iff. cbn [In].
      intros [I|[[I|[I|[I|[]]]]|[I|[[I|[I|[I|[]]]]|I]]]]; try tauto; discriminate.
    - unfold header_line. apply header_exists. intros h Ih. destruct (headers_plain h Ih) as [Qh Xh].
      replace (text "    " ++ (quote :: k ++ [quote]) ++ text ": " ++ (quote :: s ++ [quote]) ++ c)
        with (text "    " ++ quote :: k ++ quote :: text ": " ++ quote :: s ++ quote :: c)
        by (cbn [app]; rewrite <- !app_assoc; reflexivity).
      apply contains_four; auto. intros ->. exact (Ns Ih). }
  destruct M as (l & ls & E & Hl & F). rewrite E. cbn [flat_map]. rewrite (no_header_lines ls F). unfold gap.
  destruct (header_line section_headers l).
  - exists [[]]. split; [reflexivity|]. split; [reflexivity|]. intros N. destruct N. apply Hl. reflexivity.
  - exists []. split; [reflexivity|]. split; [|reflexivity]. intros I. apply Hl in I. discriminate.
Qed.

(** ** The whole file *)
Definition entry (kv : chars * json) : chars := dump_text (fst kv) ++ text ": " ++ dumps 1 (snd kv).
Definition body (cfg : list (chars * json)) : chars :=
  text "    " ++ join (text "," ++ line_break 1) (map entry cfg) ++ nl :: text "}".

Lemma body_blocks : forall cfg, cfg <> [] -> template_like cfg ->
  block_lines (fun k => In k section_headers) cfg (flat_map (gap (header_line section_headers)) (lines_of (body cfg))).
Proof.
  induction cfg as [|[k v] cfg IH]; intros N F; [congruence|]. inversion F as [|? ? [Hk Hv] F']; subst. cbn [fst snd] in Hk, Hv.
  destruct cfg as [|kv cfg].
  - destruct (entry_lines k v (text "") Hk Hv (or_introl eq_refl)) as (g & E & G1 & G2).
    cbn [block_lines]. exists g, [text "}"]. split; [|auto].
    replace (body [(k, v)]) with ((text "    " ++ dump_text k ++ text ": " ++ dumps 1 v ++ text "") ++ nl :: text "}")
      by (unfold body, entry; cbn [map join fst snd]; rewrite <- !app_assoc; reflexivity).
    rewrite lines_app, flat_map_app, E, <- app_assoc. reflexivity.
  - destruct (entry_lines k v (text ",") Hk Hv (or_intror eq_refl)) as (g & E & G1 & G2).
    change (block_lines (fun k => In k section_headers) ((k, v) :: kv :: cfg)) with
      (fun ls => exists gap rest,
        ls = (gap ++ lines_of (text "    " ++ dump_text k ++ text ": " ++ dumps 1 v ++ text ",") ++ rest)%list
        /\ (In k section_headers -> gap = [[]]) /\ (~ In k section_headers -> gap = [])
        /\ block_lines (fun k => In k section_headers) (kv :: cfg) rest).
    exists g, (flat_map (gap (header_line section_headers)) (lines_of (body (kv :: cfg)))).
    split; [|split; [exact G1|split; [exact G2|apply IH; [discriminate|exact F']]]].
    replace (body ((k, v) :: kv :: cfg)) with ((text "    " ++ dump_text k ++ text ": " ++ dumps 1 v ++ text ",") ++ nl :: body (kv :: cfg)).
    + rewrite lines_app, flat_map_app, E, <- app_assoc. reflexivity.
    + unfold body. change (map entry ((k, v) :: kv :: cfg)) with (entry (k, v) :: map entry (kv :: cfg)).
      rewrite join_cons by discriminate. unfold entry at 2. cbn [fst snd]. rewrite <- !app_assoc. reflexivity.
Qed.

Lemma gaps_no_nl : forall hd ls, Forall (fun l => ~ In nl l) ls -> Forall (fun l => ~ In nl l) (flat_map (gap hd) ls).
Proof.
  intros hd ls F. induction F as [|l ls Hl F IH]; [constructor|]. cbn [flat_map]. apply Forall_app. split; [|exact IH].
  unfold gap. destruct (hd l); repeat constructor; auto.
Qed.

Lemma format_lines : forall cfg, cfg <> [] -> lines_of (format_json_with_gaps cfg)
  = text "{" :: flat_map (gap (header_line section_headers)) (lines_of (body cfg)).
Proof.
  intros cfg N. unfold format_json_with_gaps. rewrite insert_gaps_flat. fold (header_line section_headers).
  destruct (dumps_end cfg) as [u Hu]. unfold splitlines. rewrite Hu, split_lines by (discriminate || intros []). cbn [app]. rewrite <- Hu.
  rewrite lines_join.
  - replace (dumps 0 (JDict cfg)) with (text "{" ++ nl :: body cfg).
    + rewrite lines_app. reflexivity.
    + destruct cfg as [|kv cfg]; [congruence|]. unfold body, entry, line_break. cbn -[dump_text dumps join map]. reflexivity.
  - apply gaps_nonempty, lines_ne.
  - apply gaps_no_nl. eapply Forall_impl; [|apply lines_chars]. intros l [A _]. exact A.
Qed.
