(** C140: what the environment variables do to the version and to the log. *)
From Coq Require Import String Ascii List Bool Arith Lia.
From Verif Require Import Model_Environment Spec_Environment Proofs_Environment.
Import ListNotations.
Open Scope string_scope.

(** Without the variable, or with it switched off, the version is the plain one. *)
Theorem C140_release nightly git today :
  nightly = None \/ (exists v, nightly = Some v /\ (reads v "0" \/ reads v "false")) ->
  get_version nightly git today = Some "0.2.1".
Proof.
  intros [->|(v & -> & H)]; [reflexivity|]. unfold get_version.
  destruct H as [H|H]; apply lower_reads in H; try reflexivity; rewrite H; reflexivity.
Qed.
Print Assumptions C140_release.
Example C140_release_nonvacuous : reads "FaLSe" "false" /\ get_version (Some "FaLSe") (Some "4e1f") "20261117" = Some "0.2.1".
Proof. split; [apply lower_reads|]; reflexivity. Qed.

(** With it switched on, the version names the commit, or the date if there is none. *)
Theorem C140_nightly v git today :
  reads v "1" \/ reads v "true" ->
  (forall hash, git = Some hash -> hash <> "" -> get_version (Some v) git today = Some ("0.2.1+g" ++ hash)) /\
  (git = None \/ git = Some "" -> get_version (Some v) git today = Some ("0.2.1+d" ++ today)).
Proof.
  intros H. unfold get_version.
  assert (E : lower v = "1" \/ lower v = "true").
  { destruct H as [H|H]; [left|right]; apply lower_reads in H; try reflexivity; exact H. }
  clear H. split.
  - intros hash -> Hh. cbn [commit_hash]. apply String.eqb_neq in Hh. rewrite Hh. destruct E as [->| ->]; reflexivity.
  - intros [->| ->]; destruct E as [->| ->]; reflexivity.
Qed.
Print Assumptions C140_nightly.
Example C140_nightly_nonvacuous :
  reads "TRUE" "true" /\ get_version (Some "TRUE") (Some "4e1f") "20261117" = Some "0.2.1+g4e1f" /\
  get_version (Some "1") None "20261117" = Some "0.2.1+d20261117".
Proof. split; [apply lower_reads|split]; reflexivity. Qed.

(** The package cannot be imported exactly when the variable has another value. *)
Theorem C140_refused nightly git today :
  get_version nightly git today = None <->
  exists v, nightly = Some v /\ ~ reads v "0" /\ ~ reads v "1" /\ ~ reads v "false" /\ ~ reads v "true".
Proof.
  unfold get_version. destruct nightly as [v|].
  2:{ split; [discriminate|]. intros (v & E & _). discriminate. }
  split.
  - intros H. exists v. split; [reflexivity|].
    assert (N : ~ In (lower v) ["1"; "0"; "true"; "false"]).
    { intros I. apply one_of_In in I. rewrite I in H.
      destruct (one_of (lower v) ["0"; "false"]); [discriminate|].
      destruct (commit_hash git) as [h|]; [destruct (String.eqb h "")|]; discriminate. }
    repeat split; intros Hr; apply lower_reads in Hr; try reflexivity; apply N; rewrite Hr; cbn; auto.
  - intros (w & E & H0 & H1 & Hf & Ht). injection E as <-.
    destruct (one_of (lower v) ["1"; "0"; "true"; "false"]) eqn:O; [|reflexivity].
    exfalso. apply one_of_In in O. destruct O as [O|[O|[O|[O|[]]]]]; symmetry in O; apply lower_reads in O; auto.
Qed.
Print Assumptions C140_refused.
Example C140_refused_nonvacuous : get_version (Some "yes") (Some "4e1f") "20261117" = None.
Proof. reflexivity. Qed.

(** Every version is one that the packaging tools accept, provided that git prints letters and digits. *)
Theorem C140_well_formed nightly git today v :
  version_text today -> (forall hash, git = Some hash -> hash <> "" -> version_text hash) ->
  get_version nightly git today = Some v -> well_formed v.
Proof.
  intros Ht Hg H. unfold get_version in H.
  assert (L : forall c s, version_char c -> version_text s -> version_text (String c s)).
  { intros c s Hc [_ Hs]. split; [discriminate|]. cbn. constructor; assumption. }
  assert (D : forall v, Some (base_version ++ "+d" ++ today) = Some v -> well_formed v).
  { intros v' E. injection E as <-. right. exists (String "d" today). split; [reflexivity|].
    apply L; [|exact Ht]. apply version_charb_In; reflexivity. }
  assert (B : forall v, Some base_version = Some v -> well_formed v).
  { intros v' E. injection E as <-. left. reflexivity. }
  destruct nightly as [w|]; [|auto].
  destruct (one_of (lower w) _); [|discriminate].
  destruct (one_of (lower w) _); [auto|].
  destruct git as [hash|]; cbn [commit_hash] in H; [|auto].
  destruct (String.eqb_spec hash "") as [_|Hh]; [auto|].
  injection H as <-. right. exists (String "g" hash). split; [reflexivity|].
  apply L; [|exact (Hg _ eq_refl Hh)]. apply version_charb_In; reflexivity.
Qed.
Print Assumptions C140_well_formed.
Example C140_well_formed_nonvacuous : version_text "20261117" /\ version_text "4e1f".
Proof. split; (split; [discriminate|]); cbn; repeat (apply Forall_cons; [apply version_charb_In; reflexivity|]); apply Forall_nil. Qed.

(** A run starts to log exactly if the level is one of the seven, spelled in capitals, and the name
    of the directory is not empty; the level is the one that is asked for. *)
Theorem C140_level level dir file now :
  (forall l, set_log_level level dir file now = Some l -> forall v, level = Some v -> log_level l = v) /\
  ((exists l, set_log_level level dir file now = Some l) <->
   (forall v, level = Some v -> In v ["TRACE"; "DEBUG"; "INFO"; "SUCCESS"; "WARNING"; "ERROR"; "CRITICAL"]) /\ dir <> Some "").
Proof.
  unfold set_log_level. cbv zeta. split.
  - intros l H v ->. cbn [or_default] in H. destruct (one_of v valid_levels); [|discriminate].
    destruct (String.eqb _ ""); [discriminate|]. injection H as <-. reflexivity.
  - split.
    + intros [l H]. destruct (one_of (or_default level "TRACE") valid_levels) eqn:O; [|discriminate]. split.
      * intros v ->. apply one_of_In. exact O.
      * intros ->. discriminate.
    + intros [Hl Hd].
      assert (O : one_of (or_default level "TRACE") valid_levels = true).
      { destruct level as [v|]; [apply one_of_In; exact (Hl v eq_refl)|reflexivity]. }
      rewrite O. destruct (String.eqb_spec (or_default dir "./logs") "") as [E|_]; [|eexists; reflexivity].
      exfalso. destruct dir as [d|]; [|discriminate]. apply Hd. cbn in E. now subst.
Qed.
Print Assumptions C140_level.
Example C140_level_nonvacuous :
  set_log_level (Some "INFO") None None "20261117225000" =
  Some (Log "INFO" "./logs/gwkokab_20261117225000.log" "./logs") /\
  set_log_level (Some "info") None None "20261117225000" = None.
Proof. split; reflexivity. Qed.

(** Without the variable the level is not WARNING, as documented, but TRACE: everything is logged. *)
Theorem C140_preset dir file now l : set_log_level None dir file now = Some l -> log_level l = "TRACE".
Proof.
  unfold set_log_level. cbv zeta. cbn [or_default]. change (one_of "TRACE" valid_levels) with true. cbv iota.
  destruct (String.eqb _ ""); [discriminate|]. intros E. injection E as <-. reflexivity.
Qed.
Print Assumptions C140_preset.
Theorem C140_preset_refuted :
  ~ (forall dir file now l, set_log_level None dir file now = Some l -> log_level l = "WARNING").
Proof. intros H. specialize (H None None "" _ eq_refl). discriminate. Qed.
Print Assumptions C140_preset_refuted.

(** The log is written to the file that is named, in the directory that is named and made, if the
    name of the file is not an absolute path; ./logs and the time are the defaults. *)
Theorem C140_file level dir file now l :
  set_log_level level dir file now = Some l ->
  (forall f, file = Some f -> ~ absolute f) ->
  log_dir l = match dir with Some d => d | None => "./logs" end /\
  lies_in (log_dir l) (log_filename l) /\
  end_of (match file with Some f => f | None => "gwkokab_" ++ now ++ ".log" end) (log_filename l).
Proof.
  unfold set_log_level. cbv zeta. intros H Ha. destruct (one_of _ _); [|discriminate].
  destruct (String.eqb_spec (or_default dir "./logs") "") as [|Hd]; [discriminate|].
  match type of H with Some ?x = _ => assert (El : l = x) by congruence end. subst l. clear H. cbn [log_dir log_filename].
  assert (A : ~ absolute (or_default file ("gwkokab_" ++ now ++ ".log"))).
  { destruct file as [f|]; [exact (Ha f eq_refl)|]. intros [a E]. discriminate. }
  split; [destruct dir; reflexivity|]. split; [apply join_lies; assumption|].
  fold (or_default file ("gwkokab_" ++ now ++ ".log")).
  set (f := or_default file ("gwkokab_" ++ now ++ ".log")). unfold join.
  destruct (prefix "/" f); [exists ""; reflexivity|].
  destruct (_ || _); [exists (or_default dir "./logs"); reflexivity|exists (or_default dir "./logs" ++ "/")]. rewrite append_assoc. reflexivity.
Qed.
Print Assumptions C140_file.
Example C140_file_nonvacuous :
  set_log_level None (Some "out/") (Some "a.log") "" = Some (Log "TRACE" "out/a.log" "out/") /\ ~ absolute "a.log".
Proof. split; [reflexivity|]. intros [a E]. discriminate. Qed.
(** With an absolute path the directory is made and stays empty. *)
Theorem C140_file_refuted :
  ~ (forall level dir file now l, set_log_level level dir file now = Some l -> lies_in (log_dir l) (log_filename l)).
Proof.
  intros H. specialize (H None (Some "out") (Some "/tmp/a.log") "" _ eq_refl). destruct H as [n [E|[_ E]]]; discriminate.
Qed.
Print Assumptions C140_file_refuted.

(** A line of the log names the file it comes from by its path below site-packages. *)
Theorem C140_path relpath before below :
  at_most_once "site-packages" (before ++ "site-packages" ++ "/" ++ below) ->
  short_path relpath (before ++ "site-packages" ++ "/" ++ below) = below.
Proof.
  intros U. destruct (at_most_once_split _ _ _ U) as [E N]; [discriminate|].
  unfold short_path, second_part. rewrite E, N. destruct below; reflexivity.
Qed.
Print Assumptions C140_path.
Theorem C140_path_elsewhere relpath path :
  ~ contains "site-packages" path -> short_path relpath path = relpath path.
Proof. intros H. apply find_first_None in H. unfold short_path, second_part. rewrite H. reflexivity. Qed.
Print Assumptions C140_path_elsewhere.
Example C140_path_nonvacuous :
  short_path (fun p => p) ("/e/lib/" ++ "site-packages" ++ "/" ++ "gwkanal/core/flowMC.py") = "gwkanal/core/flowMC.py" /\
  at_most_once "site-packages" ("/" ++ "site-packages" ++ "/" ++ "a.py").
Proof.
  split; [reflexivity|]. intros a b a' b' E E'.
  assert (K : forall x y, "/" ++ "site-packages" ++ "/" ++ "a.py" = x ++ "site-packages" ++ y -> x = "/").
  { intros x y K. destruct x as [|c x]; cbn in K; [discriminate|]. injection K as <- K.
    destruct x as [|c x]; [reflexivity|]. exfalso.
    repeat (cbn in K; first [discriminate | (injection K as _ K; destruct x as [|? x]) | (destruct x as [|? x])]). }
  rewrite (K _ _ E), (K _ _ E'). reflexivity.
Qed.
(** With two such directories in the path the name of the file is lost. *)
Theorem C140_path_refuted :
  ~ (forall relpath path, contains "site-packages/" path -> end_of (short_path relpath path) path).
Proof.
  intros H. specialize (H (fun p => p) "/e/site-packages/pip/site-packages/x.py").
  destruct H as [a E].
  - exists "/e/", "pip/site-packages/x.py". reflexivity.
  - change (short_path (fun p => p) "/e/site-packages/pip/site-packages/x.py") with "pip/" in E.
    assert (L : forall p q, list_ascii_of_string (p ++ q) = (list_ascii_of_string p ++ list_ascii_of_string q)%list).
    { induction p as [|c p IH]; intros q; cbn; [reflexivity|f_equal; apply IH]. }
    apply (f_equal (fun s => hd "x"%char (rev (list_ascii_of_string s)))) in E. rewrite L, rev_app_distr in E. discriminate.
Qed.
Print Assumptions C140_path_refuted.
