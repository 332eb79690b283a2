(** Lemmas about the scatter scripts. *)
From Coq Require Import String List Bool Arith Lia.
From Verif Require Import Model_Plots Spec_Plots Proofs_Plots Model_Scatter Spec_Scatter.
Import ListNotations.
Open Scope string_scope.

Section S.
Context {num : Type}.
Variable fmt : num -> string.
Variable parse : string -> option num.
Hypothesis F : numeral_format fmt parse.

Lemma put_same (d : disk num) p c : put d p c p = Some c.
Proof. unfold put. now rewrite String.eqb_refl. Qed.
Lemma put_other (d : disk num) p c q : q <> p -> put d p c q = d q.
Proof. intros H. unfold put. apply String.eqb_neq in H. now rewrite H. Qed.

Lemma zip3_shows labels (rows : list (list num)) x y z i j k :
  nth_error labels i = Some x -> nth_error labels j = Some y -> nth_error labels k = Some z ->
  shows labels rows x y z (Group (zip3 (values i rows) (values j rows) (values k rows)) (values k rows)).
Proof.
  intros Hx Hy Hz. split; cbn [points colours]; induction rows as [|r rows IH]; cbn; constructor; auto.
  - cbn. unfold cell. repeat split; eexists; split; eauto.
  - unfold cell. eauto.
Qed.
Lemma one_group_shows o c labels rows :
  holds_table fmt c labels rows -> color o = None ->
  In (x_name o) labels -> In (y_name o) labels -> In (z_name o) labels ->
  exists g, one_group parse o c = Some g /\ shows labels rows (x_name o) (y_name o) (z_name o) g.
Proof.
  intros [T ->] Hc Hx Hy Hz.
  apply In_nth_error in Hx. apply In_nth_error in Hy. apply In_nth_error in Hz.
  destruct Hx as [i Hx], Hy as [j Hy], Hz as [k Hz]. unfold one_group.
  rewrite (load_column_bare fmt parse F labels rows _ _ T Hx), (load_column_bare fmt parse F labels rows _ _ T Hy),
    (load_column_bare fmt parse F labels rows _ _ T Hz), Hc.
  eexists. split; [reflexivity|]. now apply zip3_shows.
Qed.
Lemma one_group_color o c k : color o = Some k -> one_group parse o c = None.
Proof.
  intros H. unfold one_group. destruct c as [l|]; [|reflexivity].
  destruct (load_column parse l (x_name o)), (load_column parse l (y_name o)), (load_column parse l (z_name o)); auto. now rewrite H.
Qed.
Lemma one_group_empty o : one_group parse o (Text []) = None.
Proof. reflexivity. Qed.
Lemma all_groups_In o d files gs : all_groups parse o d files = Some gs ->
  forall f, In f files -> exists c g, d f = Some c /\ one_group parse o c = Some g.
Proof.
  revert gs. induction files as [|f t IH]; intros gs H g Hin; [destruct Hin|]. cbn in H.
  destruct (d f) as [c|] eqn:E; [|discriminate]. destruct (one_group parse o c) as [g0|] eqn:G; [|discriminate].
  destruct (all_groups parse o d t) as [gs'|] eqn:A; [|discriminate]. destruct Hin as [<-|Hin]; eauto.
Qed.
Lemma all_groups_shows o d files tables :
  color o = None ->
  Forall2 (fun f t => exists c, d f = Some c /\ holds_table fmt c (fst t) (snd t) /\
             In (x_name o) (fst t) /\ In (y_name o) (fst t) /\ In (z_name o) (fst t)) files tables ->
  exists gs, all_groups parse o d files = Some gs /\
    Forall2 (fun t g => shows (fst t) (snd t) (x_name o) (y_name o) (z_name o) g) tables gs.
Proof.
  intros Hc H. induction H as [|f t files tables (c & E & T & Hx & Hy & Hz) H (gs & A & B)]; cbn; [exists []; split; [reflexivity|constructor]|].
  destruct (one_group_shows o c (fst t) (snd t) T Hc Hx Hy Hz) as (g & G & Sg).
  rewrite E, G, A. exists (g :: gs). split; [reflexivity|]. now constructor.
Qed.
End S.
