From Coq Require Import String List Bool.
From Verif Require Import Model_Guru Model_Config Model_Factory Spec_Factory.
Import ListNotations.
Open Scope string_scope.

Lemma setting_or config name default : setting config name default (option_or config name default).
Proof. unfold setting, option_or. destruct (dget config name); auto. Qed.
Lemma setting_det config name default v w : setting config name default v -> setting config name default w -> v = w.
Proof. intros [H|(H & ->)] [K|(K & ->)]; congruence. Qed.
Lemma setting_is config name default v : setting config name default v -> option_or config name default = v.
Proof. intros H. eapply setting_det; [apply setting_or|exact H]. Qed.

Lemma dget_dpop {A} (d : list (string * A)) k n : n <> k -> dget (dpop d k) n = dget d n.
Proof.
  intros H. induction d as [|(a, v) d IH]; auto. unfold dpop in *. cbn [filter fst].
  destruct (String.eqb_spec a k) as [->|Ha]; cbn [negb dget].
  - rewrite IH. destruct (String.eqb_spec k n); [congruence|reflexivity].
  - destruct (String.eqb a n); auto.
Qed.
Lemma dget_dpop_same {A} (d : list (string * A)) k : dget (dpop d k) k = None.
Proof.
  induction d as [|(a, v) d IH]; auto. unfold dpop in *. cbn [filter fst].
  destruct (String.eqb_spec a k) as [->|Ha]; cbn [negb dget]; auto.
  destruct (String.eqb_spec a k); [contradiction|auto].
Qed.
Lemma option_dpop d k n x : n <> k -> option_or (dpop d k) n x = option_or d n x.
Proof. intros H. unfold option_or. now rewrite dget_dpop. Qed.

Lemma ends_with_py_iff s : ends_with_py s = true <-> python_file s.
Proof.
  split.
  - induction s as [|a s IH]; [discriminate|]. cbn [ends_with_py]. intros H.
    apply orb_true_iff in H as [H|H].
    + apply String.eqb_eq in H. exists "". exact H.
    + destruct (IH H) as (stem & ->). exists (String a stem). reflexivity.
  - intros (stem & ->). induction stem as [|a stem IH]; [reflexivity|].
    cbn [append ends_with_py]. rewrite IH. apply orb_true_r.
Qed.

Lemma options_of (config : list (string * json)) name :
  dget (dpop (dpop (dpop (dpop config "estimator_type") "filename") "batch_size") "python_module_path") name
  = if existsb (String.eqb name) ["estimator_type"; "filename"; "batch_size"; "python_module_path"]
    then None else dget config name.
Proof.
  cbn [existsb].
  destruct (String.eqb_spec name "estimator_type") as [->|H1].
  { rewrite !dget_dpop by discriminate. now rewrite dget_dpop_same. }
  destruct (String.eqb_spec name "filename") as [->|H2].
  { rewrite !dget_dpop by discriminate. now rewrite dget_dpop_same. }
  destruct (String.eqb_spec name "batch_size") as [->|H3].
  { rewrite dget_dpop by discriminate. now rewrite dget_dpop_same. }
  destruct (String.eqb_spec name "python_module_path") as [->|H4].
  { now rewrite dget_dpop_same. }
  cbn [orb]. now rewrite !dget_dpop.
Qed.

(** C101: which estimator a configuration selects, and with which settings; [config] is the JSON
    object *)
Theorem C101_selection_sound : forall import_module config c,
  get_estimator import_module config = Some c ->
  dget config "key" = None /\ dget config "parameters" = None /\ selects import_module config c.
Proof.
  intros im config c. unfold get_estimator, din.
  destruct (dget config "key") eqn:Ek; [discriminate|]. destruct (dget config "parameters") eqn:Ep; [discriminate|].
  cbn [orb]. intros H. split; [reflexivity|]. split; [reflexivity|]. revert H.
  destruct (dget config "estimator_type") as [[t|n| |g]|] eqn:Et; try discriminate;
    destruct (dget config "filename") as [f|] eqn:Ef; try discriminate.
  rewrite !option_dpop by discriminate. unfold selects.
  destruct (String.eqb_spec t "injection") as [->|_].
  { intros H. inversion H; subst. exists f. repeat split; auto using setting_or. }
  destruct (String.eqb_spec t "neural_vt") as [->|_].
  { intros H. inversion H; subst. exists f. repeat split; auto using setting_or. }
  destruct (String.eqb_spec t "neural_pdet") as [->|_].
  { intros H. inversion H; subst. exists f. repeat split; auto using setting_or. }
  destruct (String.eqb_spec t "custom") as [->|_]; [|discriminate].
  rewrite !dget_dpop by discriminate.
  destruct (dget config "python_module_path") as [[path|n| |g]|] eqn:Em; try discriminate.
  destruct (ends_with_py path) eqn:Epy; [|discriminate].
  destruct (im path) as [[|]|] eqn:Ei; try discriminate.
  intros H. inversion H; subst. exists f. apply ends_with_py_iff in Epy.
  repeat split; auto using setting_or. intros name. apply options_of.
Qed.
Print Assumptions C101_selection_sound.

(** conversely, whatever the configuration means is what is called (for a custom module, with the
    same options) *)
Theorem C101_selection_complete : forall import_module config c,
  dget config "key" = None -> dget config "parameters" = None -> selects import_module config c ->
  exists c', get_estimator import_module config = Some c' /\
    match c, c' with
    | CallCustom p f b o, CallCustom p' f' b' o' =>
      p' = p /\ f' = f /\ b' = b /\ forall name, dget o' name = dget o name
    | _, _ => c' = c
    end.
Proof.
  intros im config c Hk Hp (f & Hf & H). unfold get_estimator, din. rewrite Hk, Hp, Hf. cbn [orb].
  destruct c as [f' b far snr|f' b n t|f' b n t|path f' b o].
  - destruct H as (Ht & -> & Hb & H1 & H2). rewrite Ht. cbn [String.eqb Ascii.eqb Bool.eqb].
    rewrite !option_dpop by discriminate. eexists; split; [reflexivity|].
    f_equal; now apply setting_is.
  - destruct H as (Ht & -> & Hb & H1 & H2). rewrite Ht. cbn [String.eqb Ascii.eqb Bool.eqb].
    rewrite !option_dpop by discriminate. eexists; split; [reflexivity|].
    f_equal; now apply setting_is.
  - destruct H as (Ht & -> & Hb & H1 & H2). rewrite Ht. cbn [String.eqb Ascii.eqb Bool.eqb].
    rewrite !option_dpop by discriminate. eexists; split; [reflexivity|].
    f_equal; now apply setting_is.
  - destruct H as (Ht & -> & Hb & Hm & Hpy & Hi & Ho). rewrite Ht. cbn [String.eqb Ascii.eqb Bool.eqb].
    rewrite !dget_dpop by discriminate. rewrite Hm. apply ends_with_py_iff in Hpy. rewrite Hpy, Hi.
    eexists; split; [reflexivity|]. repeat split; auto.
    + now apply setting_is.
    + intros name. rewrite Ho. apply options_of.
Qed.
Print Assumptions C101_selection_complete.

(** the full claim "an option the chosen estimator does not know is rejected" fails for the built-in
    estimators: a misspelt option is dropped without notice and the default is used *)
Theorem C101_unknown_option_refuted : forall import_module,
  ~ (forall config c name v,
       get_estimator import_module config = Some c ->
       ~ In name ["key"; "parameters"; "estimator_type"; "filename"; "batch_size"; "far_cut"; "snr_cut";
                  "num_samples"; "time_scale"; "python_module_path"] ->
       match c with CallCustom _ _ _ _ => True | _ => get_estimator import_module ((name, v) :: config) = None end).
Proof.
  intros im H.
  specialize (H [("estimator_type", JStr "injection"); ("filename", JStr "inj.hdf5")] _ "far_cutt" (JNum 2) eq_refl).
  cbn in H. assert (K : Some (CallInjection (JStr "inj.hdf5") JNull (JNum 1) (JNum 10)) = None) by (apply H; intuition discriminate).
  discriminate.
Qed.
Print Assumptions C101_unknown_option_refuted.

Example C101_nonvacuous :
  get_estimator (fun _ => Some true)
    [("filename", JStr "vt.h5"); ("estimator_type", JStr "neural_vt"); ("time_scale", JNum 3)]
  = Some (CallNeuralVT (JStr "vt.h5") JNull (JNum 1000) (JNum 3))
  /\ get_estimator (fun _ => Some true)
    [("estimator_type", JStr "custom"); ("filename", JStr "x"); ("python_module_path", JStr "est.py"); ("alpha", JNum 7)]
  = Some (CallCustom "est.py" (JStr "x") JNull [("alpha", JNum 7)])
  /\ get_estimator (fun _ => Some true)
    [("estimator_type", JStr "custom"); ("filename", JStr "x"); ("python_module_path", JStr "est.txt")] = None.
Proof. repeat split. Qed.
