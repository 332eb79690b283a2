(** Model of gwkokab/poisson_mean/poisson_factory.py:23-107, called as in gwkanal/core/sage.py:171-176:
    the options come from a JSON object.  The estimators themselves are modelled elsewhere; the
    result here is the call that is made (the key and the parameters are passed on unchanged and
    left out). *)
From Coq Require Import String List Bool.
From Verif Require Import Model_Guru Model_Config.
Import ListNotations.
Open Scope string_scope.

Inductive json := JStr (s : string) | JNum (n : nat) | JNull | JOther (tag : nat).

Inductive call :=
| CallInjection (filename batch_size far_cut snr_cut : json)
| CallNeuralVT (filename batch_size num_samples time_scale : json)
| CallNeuralPdet (filename batch_size num_samples time_scale : json)
| CallCustom (module : string) (filename batch_size : json) (options : list (string * json)).

(** kwargs.pop(k, default) *)
Definition option_or (d : list (string * json)) (k : string) (default : json) : json :=
  match dget d k with Some v => v | None => default end.
(** s.endswith(".py") *)
Fixpoint ends_with_py (s : string) : bool :=
  match s with
  | EmptyString => false
  | String _ s' => String.eqb s ".py" || ends_with_py s'
  end.

Section Factory.
(** importing a python file: None when that raises, otherwise whether it defines
    custom_poisson_mean_estimator *)
Variable import_module : string -> option bool.

(** get_selection_fn_and_poisson_mean_estimator(key=..., parameters=..., **config) *)
Definition get_estimator (config : list (string * json)) : option call :=
  (* duplicate keyword arguments and missing required ones raise TypeError *)
  if din config "key" || din config "parameters" then None else
  match dget config "estimator_type", dget config "filename" with
  | Some etype, Some filename =>
    let batch_size := option_or config "batch_size" JNull in
    let kwargs := dpop (dpop (dpop config "estimator_type") "filename") "batch_size" in
    match etype with
    | JStr t =>
      if String.eqb t "injection" then
        Some (CallInjection filename batch_size (option_or kwargs "far_cut" (JNum 1))
                            (option_or kwargs "snr_cut" (JNum 10)))
      else if String.eqb t "neural_vt" then
        Some (CallNeuralVT filename batch_size (option_or kwargs "num_samples" (JNum 1000))
                           (option_or kwargs "time_scale" (JNum 1)))
      else if String.eqb t "neural_pdet" then
        Some (CallNeuralPdet filename batch_size (option_or kwargs "num_samples" (JNum 1000))
                             (option_or kwargs "time_scale" (JNum 1)))
      else if String.eqb t "custom" then
        match dget kwargs "python_module_path" with
        | Some (JStr path) =>
          if ends_with_py path then
            match import_module path with
            | Some true => Some (CallCustom path filename batch_size (dpop kwargs "python_module_path"))
            | _ => None
            end
          else None
        | _ => None
        end
      else None
    | _ => None
    end
  | _, _ => None
  end.
End Factory.
