From Coq Require Import String List Bool.
From Verif Require Import Model_Guru Model_Config Model_Factory.
Import ListNotations.
Open Scope string_scope.

(** value of an option of the configuration, or its documented default *)
Definition setting (config : list (string * json)) (name : string) (default : json) (v : json) : Prop :=
  dget config name = Some v \/ (dget config name = None /\ v = default).

(** ends in ".py" *)
Definition python_file (s : string) : Prop := exists stem, s = stem ++ ".py".

Section Meaning.
Variable import_module : string -> option bool.

(** what the configuration means *)
Definition selects (config : list (string * json)) (c : call) : Prop :=
  exists filename, dget config "filename" = Some filename /\
  match c with
  | CallInjection f b far snr =>
    dget config "estimator_type" = Some (JStr "injection") /\ f = filename
    /\ setting config "batch_size" JNull b
    /\ setting config "far_cut" (JNum 1) far /\ setting config "snr_cut" (JNum 10) snr
  | CallNeuralVT f b n t =>
    dget config "estimator_type" = Some (JStr "neural_vt") /\ f = filename
    /\ setting config "batch_size" JNull b
    /\ setting config "num_samples" (JNum 1000) n /\ setting config "time_scale" (JNum 1) t
  | CallNeuralPdet f b n t =>
    dget config "estimator_type" = Some (JStr "neural_pdet") /\ f = filename
    /\ setting config "batch_size" JNull b
    /\ setting config "num_samples" (JNum 1000) n /\ setting config "time_scale" (JNum 1) t
  | CallCustom path f b options =>
    dget config "estimator_type" = Some (JStr "custom") /\ f = filename
    /\ setting config "batch_size" JNull b
    /\ dget config "python_module_path" = Some (JStr path)
    /\ python_file path /\ import_module path = Some true
    /\ (* everything else is handed over *)
       forall name, dget options name
         = if existsb (String.eqb name) ["estimator_type"; "filename"; "batch_size"; "python_module_path"]
           then None else dget config name
  end.
End Meaning.
