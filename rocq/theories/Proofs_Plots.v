(** Lemmas about text files and the plotting scripts. *)
From Coq Require Import Decimal DecimalFacts DecimalNat DecimalString.
From Coq Require Import String Ascii List Arith Bool Lia Permutation Sorting.Sorted.
From Verif Require Import Model_Guru Model_Plots Spec_Plots.
Import ListNotations.
Open Scope nat_scope.

Definition free (c : ascii) (s : string) : Prop := ~ In c (list_ascii_of_string s).

Lemma clean_free s : clean s -> free blank s /\ free hash s.
Proof.
  intros [_ H]. split; intro I; destruct (H _ I) as [A B];
    [now apply A | now apply B].
Qed.

Lemma split_on_nonempty c s : split_on c s <> [].
Proof.
  destruct s as [|a t]; simpl; [discriminate|].
  destruct (Ascii.eqb a c); [discriminate|].
  destruct (split_on c t); discriminate.
Qed.

Lemma split_on_word c w : free c w -> split_on c w = [w].
Proof.
  induction w as [|a w IH]; intro F; [reflexivity|]. simpl.
  assert (a <> c) by (intro; subst; apply F; now left).
  apply Ascii.eqb_neq in H. rewrite H. rewrite IH; [reflexivity|].
  intro I; apply F; now right.
Qed.

Lemma split_on_app c w s : free c w ->
  split_on c (w ++ String c s) = w :: split_on c s.
Proof.
  induction w as [|a w IH]; intro F; simpl.
  - now rewrite Ascii.eqb_refl.
  - assert (a <> c) by (intro; subst; apply F; now left).
    apply Ascii.eqb_neq in H. rewrite H. rewrite IH; [reflexivity|].
    intro I; apply F; now right.
Qed.

Lemma concat_cons (w v : string) l :
  String.concat " " (w :: v :: l) = (w ++ String blank (String.concat " " (v :: l)))%string.
Proof. reflexivity. Qed.

(** Splitting undoes joining. *)
Lemma split_join l : l <> [] -> Forall (free blank) l ->
  split_on blank (String.concat " " l) = l.
Proof.
  intros N F. induction F as [|w l Fw F IH]; [easy|].
  destruct l as [|v l].
  - simpl. now apply split_on_word.
  - rewrite concat_cons, split_on_app by exact Fw. now rewrite IH.
Qed.

Lemma filter_nonempty l : Forall clean l ->
  filter (fun w => negb (String.eqb w ""%string)) l = l.
Proof.
  induction 1 as [|w l C F IH]; [reflexivity|]. simpl.
  destruct C as [N _]. apply String.eqb_neq in N. rewrite N. simpl. now rewrite IH.
Qed.

Lemma clean_free_blank l : Forall clean l -> Forall (free blank) l.
Proof. intro H. eapply Forall_impl; [|exact H]. intros a C. now apply clean_free in C. Qed.

Lemma split_ws_join l : l <> [] -> Forall clean l ->
  split_ws (String.concat " " l) = l.
Proof.
  intros N C. unfold split_ws. rewrite split_join by auto using clean_free_blank.
  now apply filter_nonempty.
Qed.

Lemma before_hash_free s : free hash s -> before_hash s = s.
Proof.
  induction s as [|a s IH]; intro F; [reflexivity|]. simpl.
  assert (a <> hash) by (intro; subst; apply F; now left).
  apply Ascii.eqb_neq in H. rewrite H. rewrite IH; [reflexivity|].
  intro I; apply F; now right.
Qed.

Lemma lstrip_hash_clean s : clean s -> forall t, lstrip_hash (s ++ t) = (s ++ t)%string.
Proof.
  intros C t. destruct s as [|a s]; [now destruct C|]. simpl.
  assert (a <> hash).
  { destruct C as [_ C]. specialize (C a (or_introl eq_refl)). now destruct C. }
  apply Ascii.eqb_neq in H. now rewrite H.
Qed.

Lemma list_ascii_app s t :
  list_ascii_of_string (s ++ t) = (list_ascii_of_string s ++ list_ascii_of_string t)%list.
Proof. induction s; simpl; congruence. Qed.

Lemma free_hash_join l : Forall clean l -> free hash (String.concat " " l).
Proof.
  induction 1 as [|w l C F IH]; [easy|].
  destruct l as [|v l].
  - simpl. now apply clean_free in C.
  - rewrite concat_cons. intro I. rewrite list_ascii_app in I.
    apply in_app_or in I. destruct I as [I|I].
    + apply clean_free in C. now apply (proj2 C).
    + destruct I as [I|I]; [discriminate|]. now apply IH.
Qed.

Lemma lstrip_hash_join l : l <> [] -> Forall clean l ->
  lstrip_hash (String.concat " " l) = String.concat " " l.
Proof.
  intros N C. destruct l as [|w l]; [easy|]. inversion C; subst.
  destruct l as [|v l].
  - cbn [String.concat]. pose proof (lstrip_hash_clean w H1 "") as K.
    assert (E : (w ++ "")%string = w).
    { clear. induction w; simpl; congruence. }
    now rewrite E in K.
  - rewrite concat_cons. now apply lstrip_hash_clean.
Qed.

Lemma map_opt_map {A B C} (f : B -> option C) (g : A -> B) (h : A -> C) l :
  (forall x, In x l -> f (g x) = Some (h x)) ->
  map_opt f (map g l) = Some (map h l).
Proof.
  induction l as [|x l IH]; intro H; [reflexivity|]. simpl.
  rewrite (H x (or_introl eq_refl)). rewrite IH; [reflexivity|].
  intros y I. apply H. now right.
Qed.

Section Format.
Context {num : Type}.
Variable fmt : num -> string.
Variable parse : string -> option num.
Hypothesis F : numeral_format fmt parse.

Lemma clean_fmt r : Forall clean (map fmt r).
Proof. apply Forall_forall. intros w I. apply in_map_iff in I. destruct I as [x [<- _]]. apply F. Qed.

Lemma parse_fmt r : map parse (map fmt r) = map Some r.
Proof. rewrite map_map. apply map_ext. intro x. apply F. Qed.

Lemma map_nil_iff r : r <> [] -> map fmt r <> [].
Proof. now destruct r. Qed.

(** A line of a row. *)
Definition line (r : list num) : string := String.concat " " (map fmt r).

Lemma line_fields r : r <> [] -> split_on blank (line r) = map fmt r.
Proof. intro N. apply split_join; [now apply map_nil_iff | apply clean_free_blank, clean_fmt]. Qed.

Lemma line_ws r : r <> [] -> split_ws (before_hash (line r)) = map fmt r.
Proof.
  intro N. unfold line. rewrite before_hash_free by (apply free_hash_join, clean_fmt).
  apply split_ws_join; [now apply map_nil_iff | apply clean_fmt].
Qed.

Lemma rows_ws rows : Forall (fun r => r <> []) rows ->
  filter (fun w : list string => match w with [] => false | _ => true end)
    (map (fun l => split_ws (before_hash l)) (map line rows)) = map (map fmt) rows.
Proof.
  induction 1 as [|r rows N _ IH]; [reflexivity|]. cbn [map filter].
  rewrite line_ws by exact N.
  destruct (map fmt r) eqn:E; [now destruct r|]. now rewrite IH.
Qed.

Lemma load_lines rows : Forall (fun r => r <> []) rows ->
  map_opt (map_opt parse)
    (filter (fun w : list string => match w with [] => false | _ => true end)
       (map (fun l => split_ws (before_hash l)) (map line rows))) = Some rows.
Proof.
  intro N. rewrite rows_ws by exact N.
  rewrite (map_opt_map (map_opt parse) (map fmt) (fun r => r)).
  - now rewrite map_id.
  - intros r _. rewrite (map_opt_map parse fmt (fun x => x)).
    + now rewrite map_id.
    + intros x _. apply F.
Qed.

Lemma savetxt_lines c labels rows :
  savetxt fmt c labels rows = (c ++ String.concat " " labels)%string :: map line rows.
Proof. reflexivity. Qed.

Lemma rows_nonempty labels rows : table labels rows -> Forall (fun r : list num => r <> []) rows.
Proof.
  intros (N & _ & _ & L). eapply Forall_impl; [|exact L].
  intros r E Er. subst. now destruct labels.
Qed.

Lemma load_after c labels rows : table labels rows ->
  load_after_header parse (savetxt fmt c labels rows) = Some rows.
Proof.
  intro T. unfold load_after_header, loadtxt. rewrite savetxt_lines. cbn [skipn].
  apply load_lines. now apply rows_nonempty with labels.
Qed.

Lemma hash_header_skipped c labels : c = "# "%string \/ c = "#"%string ->
  split_ws (before_hash (c ++ String.concat " " labels)) = [].
Proof. intros [->| ->]; reflexivity. Qed.

Lemma load_hash c labels rows : c = "# "%string \/ c = "#"%string -> table labels rows ->
  load_chain parse (savetxt fmt c labels rows) = Some rows.
Proof.
  intros Hc T. unfold load_chain, loadtxt. rewrite savetxt_lines. cbn [skipn map].
  rewrite hash_header_skipped by exact Hc. cbn [filter].
  apply load_lines. now apply rows_nonempty with labels.
Qed.

Lemma appendtxt_savetxt c labels rows more :
  appendtxt fmt (savetxt fmt c labels rows) more = savetxt fmt c labels (rows ++ more).
Proof. unfold appendtxt, savetxt. now rewrite map_app. Qed.

Lemma table_app labels rows more : table labels rows ->
  Forall (fun r : list num => length r = length labels) more -> table labels (rows ++ more).
Proof.
  intros (A & B & C & D) E. repeat split; auto. now apply Forall_app.
Qed.

(** *** pandas *)

Lemma fit_exact w (l : list (option num)) : length l = w -> fit w 0 l = l.
Proof.
  intro E. unfold fit. cbn [skipn]. rewrite firstn_app, E, Nat.sub_diag, firstn_O, app_nil_r.
  rewrite <- E. apply firstn_all.
Qed.

Lemma rows_parsed rows : Forall (fun r : list num => r <> []) rows ->
  map (fun l => map parse (split_on blank l)) (map line rows) = map (map Some) rows.
Proof.
  induction 1 as [|r rows N _ IH]; [reflexivity|]. cbn [map].
  rewrite line_fields by exact N. rewrite parse_fmt. now rewrite IH.
Qed.

Lemma read_csv_ok h names rows : Forall (fun r : list num => r <> []) rows ->
  split_on blank h = names ->
  Forall (fun r : list num => length r = length names) rows ->
  read_csv parse 0 (h :: map line rows) = Some (Frame _ names (map (map Some) rows)).
Proof.
  intros N Hn L. unfold read_csv. cbn [skipn]. rewrite Hn, rows_parsed by exact N.
  assert (E0 : match map (map Some) rows with
               | [] => 0 | r :: _ => length r - length names end = 0).
  { destruct rows as [|r t]; [reflexivity|]. cbn [map]. inversion L; subst.
    rewrite map_length, H1. apply Nat.sub_diag. }
  rewrite E0. do 2 f_equal. rewrite map_map. apply map_ext_in. intros r I.
  apply fit_exact. rewrite map_length. rewrite Forall_forall in L. now apply L.
Qed.

Lemma corner_loses_first c labels r rest : table labels (r :: rest) ->
  load_corner parse (savetxt fmt c labels (r :: rest)) = Some (map (map Some) rest).
Proof.
  intro T. pose proof (rows_nonempty _ _ T) as N. inversion N; subst.
  unfold load_corner. rewrite savetxt_lines.
  change (read_csv parse 1 (_ :: map line (r :: rest)))
    with (read_csv parse 0 (line r :: map line rest)).
  rewrite (read_csv_ok _ (map fmt r)); auto.
  - now apply line_fields.
  - destruct T as (_ & _ & _ & L). pose proof (Forall_inv L) as Lr.
    pose proof (Forall_inv_tail L) as Lt. cbn beta in Lr.
    rewrite map_length, Lr. exact Lt.
Qed.

Lemma index_of_nth l name k : NoDup l -> nth_error l k = Some name -> index_of l name = Some k.
Proof.
  revert k. induction l as [|y l IH]; intros k D E; [now destruct k|].
  inversion D; subst. destruct k as [|k]; cbn in E |- *.
  - injection E as ->. now rewrite String.eqb_refl.
  - destruct (String.eqb_spec y name) as [->|N].
    + exfalso. apply H1. eapply nth_error_In; eauto.
    + now rewrite (IH k).
Qed.

Lemma index_of_Some l name k : index_of l name = Some k -> nth_error l k = Some name.
Proof.
  revert k. induction l as [|y l IH]; intros k E; [discriminate|]. cbn in E.
  destruct (String.eqb_spec y name) as [->|N].
  - injection E as <-. reflexivity.
  - destruct (index_of l name) as [j|] eqn:E1; [|discriminate]. injection E as <-.
    now apply IH.
Qed.

Lemma index_of_In l name : In name l -> exists k, index_of l name = Some k.
Proof.
  induction l as [|y l IH]; intro I; [easy|]. cbn.
  destruct (String.eqb_spec y name) as [->|N]; [eauto|].
  destruct I as [->|I]; [easy|]. destruct (IH I) as [k ->]. cbn. eauto.
Qed.

Lemma index_of_None l name : ~ In name l -> index_of l name = None.
Proof.
  induction l as [|y l IH]; intro I; [easy|]. cbn.
  destruct (String.eqb_spec y name) as [->|N].
  - exfalso. apply I. now left.
  - rewrite IH; [reflexivity|]. intro J. apply I. now right.
Qed.

Lemma nth_map_Some (r : list num) k :
  nth k (map Some r) None = nth_error r k.
Proof. revert k. induction r; intros [|k]; simpl; auto. Qed.

Lemma column_named names name k rows : NoDup names -> nth_error names k = Some name ->
  column (Frame num names (map (map Some) rows)) name = Some (values k rows).
Proof.
  intros D E. unfold column. cbn [columns body]. rewrite (index_of_nth _ _ _ D E).
  unfold values. rewrite map_map. f_equal. apply map_ext. intro r. apply nth_map_Some.
Qed.

Lemma load_column_bare labels rows name k : table labels rows ->
  nth_error labels k = Some name ->
  load_column parse (savetxt fmt "" labels rows) name = Some (values k rows).
Proof.
  intros T E. pose proof (rows_nonempty _ _ T) as N. destruct T as (A & D & C & L).
  unfold load_column. rewrite savetxt_lines. cbn [append].
  rewrite (read_csv_ok _ labels); auto.
  - now apply column_named.
  - apply split_join; [exact A | now apply clean_free_blank].
Qed.

(** The header "# a b" has one more field than there are columns. *)
Lemma fit_short w (l : list (option num)) : S (length l) = w -> fit w 0 l = (l ++ [None])%list.
Proof.
  intro E. unfold fit. cbn [skipn]. rewrite firstn_app.
  replace (w - length l) with 1 by lia. rewrite firstn_all2 by lia.
  destruct w; [lia|]. reflexivity.
Qed.

Lemma load_column_shifted labels rows name k : table labels rows ->
  nth_error labels k = Some name ->
  load_column parse (savetxt fmt "# " labels rows) name = Some (values (S k) rows).
Proof.
  intros T E. pose proof (rows_nonempty _ _ T) as N. destruct T as (A & D & C & L).
  unfold load_column. rewrite savetxt_lines.
  assert (Hs : split_on blank ("# " ++ String.concat " " labels) = "#"%string :: labels).
  { change ("# " ++ String.concat " " labels)%string
      with ("#" ++ String blank (String.concat " " labels))%string.
    rewrite split_on_app.
    - now rewrite split_join by auto using clean_free_blank.
    - intros [I|[]]. discriminate. }
  unfold read_csv. cbn [skipn]. rewrite Hs, rows_parsed by exact N.
  assert (E0 : match map (map Some) rows with
               | [] => 0 | r :: _ => length r - length ("#"%string :: labels) end = 0).
  { destruct rows as [|r t]; [reflexivity|]. cbn [map]. inversion L; subst.
    rewrite map_length, H1. cbn [length]. lia. }
  rewrite E0.
  assert (Hm : map (fit (length ("#"%string :: labels)) 0) (map (map Some) rows)
               = map (fun r : list num => (map Some r ++ [None])%list) rows).
  { rewrite map_map. apply map_ext_in. intros r I. apply fit_short.
    rewrite map_length. cbn [length]. f_equal. rewrite Forall_forall in L. now apply L. }
  rewrite Hm. unfold column. cbn [columns body].
  assert (Hi : index_of ("#"%string :: labels) name = Some (S k)).
  { apply index_of_nth; [|exact E]. constructor; [|exact D].
    intro I. rewrite Forall_forall in C. destruct (C _ I) as [_ K].
    destruct (K "#"%char (or_introl eq_refl)) as [_ K2]. now apply K2. }
  rewrite Hi. unfold values. rewrite map_map. f_equal. apply map_ext_in. intros r I.
  assert (Lr : length r = length labels) by (rewrite Forall_forall in L; now apply L).
  destruct (lt_dec (S k) (length r)) as [Hl|Hl].
  - rewrite app_nth1 by (now rewrite map_length). apply nth_map_Some.
  - rewrite app_nth2 by (rewrite map_length; lia). rewrite map_length.
    assert (k < length labels) by (apply nth_error_Some; congruence).
    replace (S k - length r) with 0 by lia. symmetry. apply nth_error_None. lia.
Qed.

Lemma load_column_hash_first l labels rows : table (l :: labels) rows ->
  load_column parse (savetxt fmt "#" (l :: labels) rows) l = None
  /\ forall name k, nth_error labels k = Some name ->
       load_column parse (savetxt fmt "#" (l :: labels) rows) name = Some (values (S k) rows).
Proof.
  intro T. pose proof (rows_nonempty _ _ T) as N. destruct T as (A & D & C & L).
  assert (Fb : free blank ("#" ++ l)).
  { intros [I|I]; [discriminate|]. inversion C; subst. apply clean_free in H1.
    now apply (proj1 H1). }
  assert (Hs : split_on blank ("#" ++ String.concat " " (l :: labels))
               = ("#" ++ l)%string :: labels).
  { inversion C; subst. destruct labels as [|v labels].
    - cbn [String.concat]. now apply split_on_word.
    - rewrite concat_cons.
      change ("#" ++ (l ++ String blank (String.concat " " (v :: labels))))%string
        with (("#" ++ l) ++ String blank (String.concat " " (v :: labels)))%string.
      rewrite split_on_app by exact Fb.
      rewrite split_join; [reflexivity|discriminate|now apply clean_free_blank]. }
  assert (Nh : forall name, In name (l :: labels) -> ("#" ++ l)%string <> name).
  { intros name I E. subst name. rewrite Forall_forall in C. destruct (C _ I) as [_ K].
    destruct (K "#"%char (or_introl eq_refl)) as [_ K2]. now apply K2. }
  assert (R : read_csv parse 0 (savetxt fmt "#" (l :: labels) rows)
              = Some (Frame _ (("#" ++ l)%string :: labels) (map (map Some) rows))).
  { rewrite savetxt_lines. now apply read_csv_ok. }
  unfold load_column. rewrite R. split.
  - unfold column. cbn [columns]. rewrite index_of_None; [reflexivity|].
    intros [I|I]; [now apply (Nh l (or_introl eq_refl))|]. inversion D; now subst.
  - intros name k E. apply column_named; [|exact E].
    inversion D; subst. constructor; [|assumption]. intro I.
    now apply (Nh _ (or_intror I)).
Qed.

(** *** hist_overplot *)

Lemma read_header_hash c labels rows : c = "# "%string \/ c = "#"%string \/ c = ""%string ->
  labels <> [] -> Forall clean labels ->
  read_header (savetxt fmt c labels rows) = labels.
Proof.
  intros Hc A C. rewrite savetxt_lines. cbn [read_header].
  destruct Hc as [->|[->| ->]].
  - change (split_ws (lstrip_hash ("# " ++ String.concat " " labels)))
      with (split_ws (String.concat " " labels)).
    now apply split_ws_join.
  - change (lstrip_hash ("#" ++ String.concat " " labels))
      with (lstrip_hash (String.concat " " labels)).
    rewrite lstrip_hash_join by assumption. now apply split_ws_join.
  - cbn [append]. rewrite lstrip_hash_join by assumption. now apply split_ws_join.
Qed.

Lemma load_hist_ok c labels rows name k : c = "# "%string \/ c = "#"%string ->
  table labels rows -> rows <> [] -> nth_error labels k = Some name ->
  load_hist parse (savetxt fmt c labels rows) name = Some (values k rows).
Proof.
  intros Hc T Nr E. pose proof (rows_nonempty _ _ T) as N. destruct T as (A & D & C & L).
  unfold load_hist, read_csv_ws. rewrite read_header_hash by tauto.
  rewrite savetxt_lines. cbn [map]. rewrite hash_header_skipped by exact Hc. cbn [filter].
  rewrite rows_ws by exact N.
  assert (G : forall w : list (list string), w <> [] ->
            match w with [] => None | a :: b => Some (map parse a :: map (map parse) b) end
            = Some (map (map parse) w)) by (intros [|? ?]; [easy|reflexivity]).
  rewrite G by now destruct rows.
  assert (Hm : map (map parse) (map (map fmt) rows) = map (map Some) rows).
  { rewrite map_map. apply map_ext. intro r. apply parse_fmt. }
  rewrite Hm.
  replace (forallb _ _) with true.
  - now apply column_named.
  - symmetry. apply forallb_forall. intros r I. apply in_map_iff in I.
    destruct I as [r' [<- I]]. rewrite map_length. apply Nat.eqb_eq.
    rewrite Forall_forall in L. now apply L.
Qed.

(** A header that is not a comment is taken for data. *)
Lemma map_opt_None {A B} (f : A -> option B) l x : In x l -> f x = None -> map_opt f l = None.
Proof.
  induction l as [|y l IH]; intros I E; [easy|]. cbn. destruct I as [->|I].
  - now rewrite E.
  - rewrite IH by assumption. now destruct (f y).
Qed.

Lemma load_chain_bare labels rows name : table labels rows ->
  In name labels -> parse name = None ->
  load_chain parse (savetxt fmt "" labels rows) = None.
Proof.
  intros (A & D & C & L) I P. unfold load_chain, loadtxt. rewrite savetxt_lines.
  cbn [skipn map append].
  rewrite before_hash_free by now apply free_hash_join.
  rewrite split_ws_join by assumption. cbn [filter].
  destruct labels as [|l labels]; [easy|]. cbn [map_opt].
  pose proof (map_opt_None parse _ _ I P) as E. cbn [map_opt] in E. now rewrite E.
Qed.

End Format.

(** ** corner_overplot *)



Lemma map_opt_total {A B} (f : A -> option B) l : (forall x, In x l -> exists y, f x = Some y) ->
  exists ys, map_opt f l = Some ys /\ length ys = length l /\
    forall k x, nth_error l k = Some x -> exists y, nth_error ys k = Some y /\ f x = Some y.
Proof.
  induction l as [|x l IH]; intro H.
  - exists []. repeat split. intros [|k] x E; discriminate.
  - destruct (H x (or_introl eq_refl)) as [y Ey].
    destruct IH as (ys & E & Ln & K). { intros z I. apply H. now right. }
    exists (y :: ys). cbn [map_opt]. rewrite Ey, E. repeat split.
    + cbn. now rewrite Ln.
    + intros [|k] z Ez; cbn in Ez |- *.
      * injection Ez as <-. eauto.
      * now apply K.
Qed.

Lemma reorder_entries {A} (d : A) header header_i row :
  NoDup header -> Permutation header header_i -> length row = length header ->
  exists out, reorder d header header_i row = Some out /\ length out = length header /\
    forall k name, nth_error header_i k = Some name ->
      exists j, nth_error header j = Some name /\ nth_error out k = nth_error row j.
Proof.
  intros D P Lr. unfold reorder, reordered_indices.
  rewrite (Permutation_length P), Nat.eqb_refl.
  destruct (map_opt_total (index_of header) header_i) as (ks & E & Lk & K).
  { intros x I. apply index_of_In. eapply Permutation_in; [symmetry; exact P|exact I]. }
  rewrite E. eexists. split; [reflexivity|]. split.
  - rewrite map_length, Lk. reflexivity.
  - intros k name En. destruct (K k name En) as (j & Ej & Ij).
    apply index_of_Some in Ij. exists j. split; [exact Ij|].
    rewrite nth_error_map, Ej. cbn [option_map].
    symmetry. apply nth_error_nth'. rewrite Lr. apply nth_error_Some. congruence.
Qed.

Lemma nth_error_seq n k : k < n -> nth_error (seq 0 n) k = Some k.
Proof.
  intro H. rewrite nth_error_nth' with (d := 0) by (now rewrite seq_length).
  now rewrite seq_nth.
Qed.

Lemma nth_error_NoDup {A} (l : list A) i j x : NoDup l ->
  nth_error l i = Some x -> nth_error l j = Some x -> i = j.
Proof.
  intros D Ei Ej. rewrite NoDup_nth_error in D. apply D; [|congruence].
  apply nth_error_Some. congruence.
Qed.

Lemma reorder_right_iff header header_i : NoDup header -> Permutation header header_i ->
  (forall row : list nat, length row = length header ->
     exists out, reorder 0 header header_i row = Some out /\ arranged header_i header row out)
  <-> exchanged_in_pairs header_i header.
Proof.
  intros D P. assert (Di : NoDup header_i) by (eapply Permutation_NoDup; eauto).
  pose proof (Permutation_length P) as Ln. split.
  - intros H k j name Ek Ej.
    assert (Hk : k < length header) by (apply nth_error_Some; congruence).
    assert (Hj : j < length header) by (rewrite Ln; apply nth_error_Some; congruence).
    destruct (H (seq 0 (length header)) (seq_length _ _)) as (out & E & _ & R).
    destruct (reorder_entries 0 header header_i _ D P (seq_length (length header) 0))
      as (out' & E' & _ & K).
    rewrite E in E'. injection E' as <-.
    destruct (nth_error header_i k) as [nm|] eqn:Ei.
    2:{ exfalso. apply nth_error_None in Ei. lia. }
    destruct (K k nm Ei) as (m & Em & Om).
    assert (Hm : m < length header) by (apply nth_error_Some; congruence).
    rewrite (R k j name Ek Ej) in Om.
    rewrite !nth_error_seq in Om by assumption. injection Om as <-. now rewrite Em.
  - intros X row Lr.
    destruct (reorder_entries 0 header header_i row D P Lr) as (out & E & Lo & K).
    exists out. split; [exact E|]. split; [exact Lo|]. intros k j name Ek Ej.
    specialize (X k j name Ek Ej).
    assert (Hj : j < length header) by (rewrite Ln; apply nth_error_Some; congruence).
    destruct (nth_error header j) as [nm|] eqn:Enj.
    2:{ exfalso. apply nth_error_None in Enj. lia. }
    destruct (K k nm X) as (m & Em & Om). rewrite Om. f_equal.
    now apply (nth_error_NoDup header m j nm).
Qed.

(** ** scatter2d *)

Lemma insert_unique_In x l y : In y (insert_unique x l) <-> y = x \/ In y l.
Proof.
  induction l as [|z l IH]; cbn [insert_unique].
  - cbn. intuition.
  - destruct (Nat.ltb_spec x z); [cbn; clear; intuition (subst; auto)|].
    destruct (Nat.eqb_spec x z) as [Exz|Nxz].
    + subst z. cbn. clear; intuition (subst; auto).
    + cbn. rewrite IH. clear; intuition (subst; auto).
Qed.

Lemma unique_In l y : In y (unique l) <-> In y l.
Proof.
  induction l as [|x l IH]; cbn; [tauto|]. rewrite insert_unique_In, IH. intuition.
Qed.

Lemma insert_unique_sorted x l : StronglySorted lt l -> StronglySorted lt (insert_unique x l).
Proof.
  induction 1 as [|z l S IH H]; cbn [insert_unique].
  - constructor; constructor.
  - destruct (Nat.ltb_spec x z).
    + constructor; [now constructor|]. constructor; [assumption|].
      eapply Forall_impl; [|exact H]. intros; lia.
    + destruct (Nat.eqb_spec x z) as [->|]; [now constructor|].
      constructor; [assumption|]. apply Forall_forall. intros y I.
      apply insert_unique_In in I. destruct I as [->|I]; [lia|].
      rewrite Forall_forall in H. now apply H.
Qed.

Lemma unique_sorted l : StronglySorted lt (unique l).
Proof. induction l; cbn; [constructor|now apply insert_unique_sorted]. Qed.

Lemma sorted_length l : forall b n, StronglySorted lt l ->
  (forall x, In x l -> b <= x < b + n) -> length l <= n.
Proof.
  induction l as [|h t IH]; intros b n S H; [cbn; lia|].
  inversion S; subst. destruct (H h (or_introl eq_refl)) as [A B].
  specialize (IH (Datatypes.S h) (b + n - Datatypes.S h) H2).
  cbn [length]. assert (length t <= b + n - Datatypes.S h); [|lia].
  apply IH. intros x I. rewrite Forall_forall in H3. specialize (H3 x I).
  specialize (H x (or_intror I)). lia.
Qed.

Lemma sorted_seq l : forall b, StronglySorted lt l ->
  (forall x, In x l -> b <= x < b + length l) -> l = seq b (length l).
Proof.
  induction l as [|h t IH]; intros b S H; [reflexivity|].
  inversion S; subst. destruct (H h (or_introl eq_refl)) as [A B].
  assert (L : length t <= b + length (h :: t) - Datatypes.S h).
  { apply (sorted_length t (Datatypes.S h)); [assumption|]. intros x I.
    rewrite Forall_forall in H3. specialize (H3 x I).
    specialize (H x (or_intror I)). lia. }
  cbn [length] in *. assert (h = b) by lia. subst h. cbn [seq]. f_equal.
  apply IH; [assumption|]. intros x I. rewrite Forall_forall in H3.
  specialize (H3 x I). specialize (H x (or_intror I)). lia.
Qed.

Lemma seq_sorted n : forall b, StronglySorted lt (seq b n).
Proof.
  induction n as [|n IH]; intro b; cbn; constructor; [apply IH|].
  apply Forall_forall. intros x I. apply in_seq in I. lia.
Qed.

Lemma sorted_ext l m : StronglySorted lt l -> StronglySorted lt m ->
  (forall x, In x l <-> In x m) -> l = m.
Proof.
  revert m. induction l as [|h t IH]; intros m S1 S2 E.
  - destruct m as [|y m]; [reflexivity|]. exfalso. apply (E y). now left.
  - destruct m as [|y m]; [exfalso; apply (E h); now left|].
    inversion S1; subst. inversion S2; subst.
    rewrite Forall_forall in H2, H4.
    assert (h = y).
    { destruct (proj1 (E h) (or_introl eq_refl)) as [->|I]; [reflexivity|].
      destruct (proj2 (E y) (or_introl eq_refl)) as [->|J]; [reflexivity|].
      specialize (H2 y J). specialize (H4 h I). lia. }
    subst y. f_equal. apply IH; [assumption|assumption|]. intro x. split; intro I.
    + destruct (proj1 (E x) (or_intror I)) as [->|J]; [|exact J].
      specialize (H2 x I). lia.
    + destruct (proj2 (E x) (or_intror I)) as [->|J]; [|exact J].
      specialize (H4 x I). lia.
Qed.

Lemma unique_contiguous labels n : (forall u, In u labels <-> u < n) -> unique labels = seq 0 n.
Proof.
  intro H. apply sorted_ext; [apply unique_sorted|apply seq_sorted|]. intro x.
  rewrite unique_In, H, in_seq. lia.
Qed.

Lemma map_opt_some_in {A B} (f : A -> option B) l ys : map_opt f l = Some ys ->
  forall x, In x l -> f x <> None.
Proof.
  revert ys. induction l as [|y l IH]; intros ys E x I; [easy|]. cbn in E.
  destruct (f y) eqn:Ey; [|discriminate].
  destruct (map_opt f l) eqn:El; [|discriminate].
  destruct I as [->|I]; [congruence|]. eapply IH; eauto.
Qed.

Lemma combine_seq_in (l : list nat) b : forall x, In x l -> exists i : nat, In (i, x) (combine (seq b (length l)) l).
Proof.
  revert b. induction l as [|y l IH]; intros b x I; [easy|]. cbn [length seq combine].
  destruct I as [->|I]; [exists b; now left|].
  destruct (IH (S b) x I) as [i J]. exists i. now right.
Qed.

Lemma scatter_succeeds {A} labels (points : list A) :
  scatter None None labels points <> None -> exists n, forall u, In u labels <-> u < n.
Proof.
  intro H. destruct (scatter None None labels points) as [gs|] eqn:E; [|easy].
  exists (length (unique labels)). unfold scatter in E.
  assert (B : forall u, In u (unique labels) -> u < length (unique labels)).
  { intros u I. destruct (combine_seq_in _ 0 u I) as [i J].
    pose proof (map_opt_some_in _ _ _ E _ J) as K. unfold draw_group, palette in K.
    destruct (Nat.ltb_spec u (length (unique labels))); [assumption|easy]. }
  assert (S : unique labels = seq 0 (length (unique labels))).
  { apply sorted_seq; [apply unique_sorted|]. intros x I. specialize (B x I). lia. }
  intro u. rewrite <- unique_In. rewrite S at 1. rewrite in_seq. lia.
Qed.

Lemma mask_having {A} labels u (points : list A) : mask labels u points = having u labels points.
Proof.
  unfold mask. revert points. induction labels as [|l ls IH]; intros [|p ps]; try reflexivity.
  cbn [combine filter having fst]. destruct (Nat.eq_dec l u) as [->|N].
  - rewrite Nat.eqb_refl. cbn [map snd]. now rewrite IH.
  - apply Nat.eqb_neq in N. rewrite N. apply IH.
Qed.

Lemma combine_self {A} (l : list A) : combine l l = map (fun x => (x, x)) l.
Proof. induction l; cbn; congruence. Qed.

Lemma scatter_groups {A} override legend labels (points : list A) n :
  (forall u, In u labels <-> u < n) ->
  n <= palette override labels ->
  (forall names, legend = Some names -> n <= length names) ->
  scatter override legend labels points =
  Some (map (fun u => Group (having u labels points) u
          (match legend with None => None | Some names => nth_error names u end)) (seq 0 n)).
Proof.
  intros H Hp Hl. unfold scatter. rewrite (unique_contiguous labels n H), seq_length.
  rewrite combine_self. apply map_opt_map. intros u I. apply in_seq in I.
  unfold draw_group. destruct (Nat.ltb_spec u (palette override labels)); [|lia].
  rewrite mask_having. destruct legend as [names|]; [|reflexivity].
  specialize (Hl names eq_refl). destruct (nth_error names u) eqn:E; [reflexivity|].
  apply nth_error_None in E. lia.
Qed.

Lemma palette_contiguous labels n : (forall u, In u labels <-> u < n) -> palette None labels = n.
Proof. intro H. cbn. rewrite (unique_contiguous labels n H). apply seq_length. Qed.

(** ** Diagnostics *)

Lemma division_last n s :
  2 <= s -> draw_division n s (s - 1) = n.
Proof.
  intro H. unfold draw_division.
  assert (n / s <= n) by (apply Nat.div_le_upper_bound; nia).
  rewrite Nat.mul_comm, Nat.div_mul by lia. lia.
Qed.

Lemma division_below n s i : 1 <= n -> 2 <= s -> i < s - 1 -> draw_division n s i < n.
Proof.
  intros Hn Hs Hi. unfold draw_division.
  assert (A : n / s < n) by (apply Nat.div_lt; lia).
  assert (B : i * (n - n / s) / (s - 1) < n - n / s).
  { apply Nat.div_lt_upper_bound; [lia|]. nia. }
  lia.
Qed.

Lemma division_mono n s i j : i <= j -> draw_division n s i <= draw_division n s j.
Proof.
  intro H. unfold draw_division. apply Nat.add_le_mono_l.
  destruct (s - 1) as [|m]; [reflexivity|]. apply Nat.div_le_mono; [lia|]. nia.
Qed.

Lemma nth_divisions n s i : i < s -> nth_error (draw_divisions n s) i = Some (draw_division n s i).
Proof.
  intro H. unfold draw_divisions. rewrite nth_error_map, nth_error_seq by exact H. reflexivity.
Qed.

(** ** A concrete format: decimal numerals *)



Definition dec_fmt (n : nat) : string := NilZero.string_of_uint (Nat.to_uint n).
Definition dec_parse (s : string) : option nat :=
  option_map Nat.of_uint (NilZero.uint_of_string s).

Lemma digits_clean d : forall a, In a (list_ascii_of_string (NilEmpty.string_of_uint d)) ->
  a <> " "%char /\ a <> "#"%char.
Proof.
  induction d; cbn; intros a I; [easy|..];
    (destruct I as [<-|I]; [split; discriminate|now apply IHd]).
Qed.

Lemma dec_format : numeral_format dec_fmt dec_parse.
Proof.
  intro n. assert (N : Nat.to_uint n <> Decimal.Nil).
  { rewrite <- (DecimalNat.Unsigned.of_to n), DecimalNat.Unsigned.to_of.
    apply DecimalFacts.unorm_nonnil. }
  unfold dec_fmt, dec_parse. split.
  - rewrite NilZero.usu by exact N. cbn [option_map]. now rewrite DecimalNat.Unsigned.of_to.
  - assert (E : NilZero.string_of_uint (Nat.to_uint n) = NilEmpty.string_of_uint (Nat.to_uint n)).
    { unfold NilZero.string_of_uint. now destruct (Nat.to_uint n). }
    rewrite E. split.
    + now destruct (Nat.to_uint n).
    + apply digits_clean.
Qed.
