(** C147: the settings template is valid JSON for exactly the settings it is made of, in blocks. *)
From Coq Require Import String Ascii List Bool Arith Lia.
From Verif Require Import Model_Template Spec_Template Proofs_Template.
Import ListNotations.

(** Whatever the settings: reading the file gives them back, in the same order. *)
Theorem C147_reads_back : forall cfg, jsonable (JDict cfg) ->
  json_load (format_json_with_gaps cfg) = Some (JDict cfg).
Proof. intros cfg W. apply reads_back, W. Qed.
Print Assumptions C147_reads_back.

Definition awkward : list (chars * json) :=
  [(text "batch_size", JText (text "a ""verbose"" \ b")); (text "x y", JArr [JNull; JArr []; JDict [(text "verbose", JBool true)]])].
Lemma awkward_jsonable : jsonable (JDict awkward).
Proof. cbn. repeat split; repeat constructor. Qed.
(** with two empty lines, both before lines that name a section *)
Example C147_reads_back_nonvacuous :
  jsonable (JDict awkward) /\ json_load (format_json_with_gaps awkward) = Some (JDict awkward)
  /\ length (filter (same_text []) (lines_of (format_json_with_gaps awkward))) = 2.
Proof. split; [exact awkward_jsonable|]. split; reflexivity. Qed.

(** For settings like those of the template, an empty line stands before the entry of a section's first name, and nowhere else. *)
Theorem C147_blocks : forall cfg, cfg <> [] -> template_like cfg ->
  exists rest, lines_of (format_json_with_gaps cfg) = text "{" :: rest
    /\ block_lines (fun k => In k section_headers) cfg rest.
Proof.
  intros cfg N F. eexists. split; [apply format_lines, N|]. apply body_blocks; assumption.
Qed.
Print Assumptions C147_blocks.

Lemma template_is_like : template_like get_cfg.
Proof.
  unfold template_like, get_cfg.
  repeat (constructor; [split; [split; [repeat constructor; cbv; lia|split; intros I; cbn in I; repeat destruct I as [I|I]; discriminate || exact I]|]|]);
    try (cbn; repeat split; repeat constructor; discriminate).
  all: cbn; repeat (split || constructor || discriminate); try (cbv; lia);
    try (intros I; cbn in I; repeat destruct I as [I|I]; discriminate || exact I).
Qed.
Example C147_blocks_nonvacuous : get_cfg <> [] /\ template_like get_cfg.
Proof. split; [discriminate|exact template_is_like]. Qed.

(** The template itself: it is read back, and every section name is one of its keys, so that there are eight gaps. *)
Theorem C147_template :
  json_load (format_json_with_gaps get_cfg) = Some (JDict get_cfg)
  /\ NoDup (map fst get_cfg) /\ incl section_headers (map fst get_cfg)
  /\ length (filter (same_text []) (lines_of (format_json_with_gaps get_cfg))) = length section_headers.
Proof.
  split; [vm_compute; reflexivity|]. split; [|split; [|vm_compute; reflexivity]].
  - repeat (constructor; [intros I; cbn in I; repeat destruct I as [I|I]; discriminate || exact I|]). constructor.
  - intros h H. cbn in H |- *. repeat destruct H as [H|H]; subst; tauto.
Qed.
Print Assumptions C147_template.

(** The code looks for the name anywhere in the line: a value that is a section's name gets an empty line too. *)
Theorem C147_value_refuted :
  ~ (forall cfg, cfg <> [] -> jsonable (JDict cfg) ->
     exists rest, lines_of (format_json_with_gaps cfg) = text "{" :: rest
       /\ block_lines (fun k => In k section_headers) cfg rest).
Proof.
  intros H. specialize (H [(text "mode", JText (text "verbose"))] ltac:(discriminate)).
  destruct H as (rest & E & B); [cbn; repeat split; repeat constructor; cbv; lia|].
  vm_compute in E. injection E as <-. cbn [block_lines] in B. destruct B as (g & r & E & _ & G & _).
  rewrite G in E by (intros I; cbn in I; repeat destruct I as [I|I]; discriminate || exact I).
  vm_compute in E. discriminate.
Qed.
Print Assumptions C147_value_refuted.
