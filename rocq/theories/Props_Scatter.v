(** C141: the 3D scatter scripts. *)
From Coq Require Import String List Bool Arith Lia.
From Verif Require Import Model_Plots Spec_Plots Proofs_Plots Model_Scatter Spec_Scatter Proofs_Scatter.
Import ListNotations.
Open Scope string_scope.

(** Without --color, the figure of scatter3d has one point for each row of the file, at the values
    of the named columns and coloured by the third of them, with the labels that were asked for; no
    other file changes. *)
Theorem C141_points {num} (fmt : num -> string) parse o d c labels rows :
  numeral_format fmt parse ->
  d (data o) = Some c -> holds_table fmt c labels rows -> data o <> output o ->
  In (x_name o) labels -> In (y_name o) labels -> In (z_name o) labels -> color o = None ->
  exists d' fig g, scatter3d parse o d = (d', true) /\ d' (output o) = Some (Picture fig) /\
    groups fig = [g] /\ shows labels rows (x_name o) (y_name o) (z_name o) g /\
    x_label fig = xlabel o /\ y_label fig = ylabel o /\ z_label fig = zlabel o /\
    title_shown fig = title o /\ bar_shown fig = color_bar o /\
    same_elsewhere (output o) d d'.
Proof.
  intros F Hd T Ho Hx Hy Hz Hc.
  destruct (one_group_shows fmt parse F o c labels rows T Hc Hx Hy Hz) as (g & G & Sg).
  assert (E : scatter3d parse o d = draw_and_save parse o (put d (output o) (Text []))).
  { unfold scatter3d. destruct (output_first o); [reflexivity|]. now rewrite Hd. }
  rewrite E. unfold draw_and_save. rewrite put_other, Hd, G by exact Ho.
  eexists _, _, g. split; [reflexivity|]. rewrite put_same. split; [reflexivity|]. cbn [groups x_label y_label z_label title_shown bar_shown].
  repeat split; try reflexivity; try apply Sg. intros p Hp. now rewrite !put_other.
Qed.
Print Assumptions C141_points.

(** With --color neither script ever draws anything. *)
Theorem C141_color_refuted {num} (parse : string -> option num) glob palette o d k :
  color o = Some k ->
  snd (scatter3d parse o d) = false /\
  (glob (data o) (put d (output o) (Text [])) <> [] -> snd (batch_scatter3d parse glob palette o d) = false).
Proof.
  intros Hc. assert (D : forall d, snd (draw_and_save parse o d) = false).
  { intros d0. unfold draw_and_save. destruct (d0 (data o)) as [c|]; [|reflexivity].
    now rewrite (one_group_color parse o c k Hc). }
  split.
  - unfold scatter3d. destruct (output_first o); [apply D|]. destruct (d (data o)); [apply D|reflexivity].
  - intros Hg. unfold batch_scatter3d. destruct (palette _); [|reflexivity].
    destruct (glob _ _) as [|f t]; [congruence|]. cbn. destruct (put _ _ _ f) as [c|]; [|reflexivity].
    now rewrite (one_group_color parse o c k Hc).
Qed.
Print Assumptions C141_color_refuted.

(** A run that fails leaves an empty file in place of an earlier figure, unless the data file does
    not exist and comes first on the command line. *)
Theorem C141_failed {num} (parse : string -> option num) o d d' :
  scatter3d parse o d = (d', false) ->
  same_elsewhere (output o) d d' /\
  (if output_first o then d' (output o) = Some (Text [])
   else match d (data o) with Some _ => d' (output o) = Some (Text []) | None => d' = d end).
Proof.
  assert (D : forall e, draw_and_save parse o (put d (output o) (Text [])) = (e, false) ->
    same_elsewhere (output o) d e /\ e (output o) = Some (Text [])).
  { intros e. unfold draw_and_save. intros H.
    assert (E : e = put d (output o) (Text [])).
    { destruct (put d (output o) (Text []) (data o)) as [c|]; [destruct (one_group parse o c)|]; congruence. }
    subst e. split; [intros p Hp; now apply put_other|apply put_same]. }
  unfold scatter3d. destruct (output_first o); [auto|].
  destruct (d (data o)); [auto|]. intros E. injection E as <-. split; [intros p _|]; reflexivity.
Qed.
Print Assumptions C141_failed.
Theorem C141_failed_refuted :
  ~ (forall (num : Type) (parse : string -> option num) o d d', scatter3d parse o d = (d', false) -> forall p, d' p = d p).
Proof.
  intros H.
  set (o := Options "e.dat" "f.png" "m1" "m2" "zz" None "x" "y" "z" None false false).
  set (d := (fun p => if String.eqb p "e.dat" then Some (Text ["m1 m2"; "3 1"]) else
                     if String.eqb p "f.png" then Some (Picture (Figure [] "" "" "" None false)) else None) : disk nat).
  specialize (H nat (fun _ => None) o d _ eq_refl "f.png"). cbv in H. discriminate.
Qed.
Print Assumptions C141_failed_refuted.
(** Naming the data file as output loses the data. *)
Theorem C141_same_file {num} (parse : string -> option num) o d c :
  d (data o) = Some c -> output o = data o ->
  exists d', scatter3d parse o d = (d', false) /\ d' (data o) = Some (Text []).
Proof.
  intros Hd Ho. exists (put d (output o) (Text [])).
  assert (E : scatter3d parse o d = draw_and_save parse o (put d (output o) (Text []))).
  { unfold scatter3d. destruct (output_first o); [reflexivity|]. now rewrite Hd. }
  rewrite E. unfold draw_and_save. rewrite Ho, put_same. split; [reflexivity|]. reflexivity.
Qed.
Print Assumptions C141_same_file.

(** batch_scatter3d draws the points of every file that matches, file by file in the order of the
    listing, if the output is not one of them. *)
Theorem C141_batch {num} (fmt : num -> string) parse glob palette o d tables :
  numeral_format fmt parse -> (forall n, palette n = true) -> color o = None ->
  let files := glob (data o) (put d (output o) (Text [])) in
  ~ In (output o) files ->
  Forall2 (fun f t => exists c, d f = Some c /\ holds_table fmt c (fst t) (snd t) /\
             In (x_name o) (fst t) /\ In (y_name o) (fst t) /\ In (z_name o) (fst t)) files tables ->
  exists d' fig, batch_scatter3d parse glob palette o d = (d', true) /\ d' (output o) = Some (Picture fig) /\
    Forall2 (fun t g => shows (fst t) (snd t) (x_name o) (y_name o) (z_name o) g) tables (groups fig) /\
    x_label fig = xlabel o /\ y_label fig = ylabel o /\ title_shown fig = title o /\
    same_elsewhere (output o) d d'.
Proof.
  intros F Hp Hc files Hn H.
  destruct (all_groups_shows fmt parse F o (put d (output o) (Text [])) files tables Hc) as (gs & A & B).
  { clear - H Hn. induction H as [|f t fs ts (c & E & T) H IH]; constructor.
    - exists c. rewrite put_other; [auto|]. intros ->. apply Hn. now left.
    - apply IH. intros I. apply Hn. now right. }
  unfold batch_scatter3d. fold files. rewrite Hp, A. eexists _, _. split; [reflexivity|]. rewrite put_same. split; [reflexivity|].
  cbn [groups x_label y_label title_shown]. repeat split; auto. intros p Hq. now rewrite !put_other.
Qed.
Print Assumptions C141_batch.
(** The label of the third axis and the colour bar never appear, whatever the options say. *)
Theorem C141_batch_labels_refuted {num} (parse : string -> option num) glob palette o d d' fig :
  batch_scatter3d parse glob palette o d = (d', true) -> d' (output o) = Some (Picture fig) ->
  z_label fig = "" /\ bar_shown fig = false.
Proof.
  unfold batch_scatter3d. destruct (palette _); [|discriminate]. destruct (all_groups _ _ _ _) as [gs|]; [|discriminate].
  intros E H.
  match type of E with (?x, _) = _ => assert (E' : d' = x) by congruence end. subst d'. rewrite put_same in H.
  assert (E2 : fig = Figure gs (xlabel o) (ylabel o) "" (title o) false) by congruence. subst fig. split; reflexivity.
Qed.
Print Assumptions C141_batch_labels_refuted.
(** If the pattern matches the output file as well, the run fails. *)
Theorem C141_batch_own_output {num} (parse : string -> option num) glob palette o d :
  In (output o) (glob (data o) (put d (output o) (Text []))) ->
  exists d', batch_scatter3d parse glob palette o d = (d', false) /\ d' (output o) = Some (Text []).
Proof.
  intros Hin. exists (put d (output o) (Text [])). split; [|apply put_same].
  unfold batch_scatter3d. destruct (palette _); [|reflexivity].
  destruct (all_groups _ _ _ _) as [gs|] eqn:A; [|reflexivity]. exfalso.
  destruct (all_groups_In parse o _ _ gs A _ Hin) as (c & g & E & G). rewrite put_same in E. injection E as <-. discriminate.
Qed.
Print Assumptions C141_batch_own_output.

(** A file with two events, drawn; and a batch of two files. *)
Definition digit (s : string) : option nat := if String.eqb s "3" then Some 3 else if String.eqb s "1" then Some 1 else None.
Example C141_nonvacuous :
  let o := Options "e.dat" "f.png" "m1" "m2" "m1" None "x" "y" "w" None true false in
  let d : disk nat := fun p => if String.eqb p "e.dat" then Some (Text ["m1 m2"; "3 1"; "1 3"]) else None in
  fst (scatter3d digit o d) "f.png" =
    Some (Picture (Figure [Group [(Some 3, Some 1, Some 3); (Some 1, Some 3, Some 1)] [Some 3; Some 1]] "x" "y" "w" None true)) /\
  fst (batch_scatter3d digit (fun _ _ => ["e.dat"; "e.dat"]) (fun _ => true) o d) "f.png" =
    Some (Picture (Figure [Group [(Some 3, Some 1, Some 3); (Some 1, Some 3, Some 1)] [Some 3; Some 1];
                           Group [(Some 3, Some 1, Some 3); (Some 1, Some 3, Some 1)] [Some 3; Some 1]] "x" "y" "" None false)).
Proof. split; reflexivity. Qed.
