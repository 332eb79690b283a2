(** The settings file of the loader of posterior samples,
    DiscreteParameterEstimationLoader.from_json
    (gwkanal/core/inference_io/_discrete.py:35-97), and the reading of the
    files it names (99-169).

    The class is a pydantic model in its default mode: a value of the wrong type
    is converted where that loses nothing (a whole float, a Boolean or a numeral
    for an integer), keys that are no fields are ignored. *)
From Coq Require Import String Ascii List Bool ZArith Reals.
From Verif Require Import Model_X Model_Settings Model_Discrete.
Import ListNotations.
Open Scope string_scope.

(** a dictionary: raw_data[key], key in raw_data, raw_data.pop(key) *)
Fixpoint entry (d : list (string * json)) (key : string) : option json :=
  match d with
  | [] => None
  | (k, v) :: t => if String.eqb k key then Some v else entry t key
  end.
Fixpoint without (d : list (string * json)) (key : string) : list (string * json) :=
  match d with
  | [] => []
  | (k, v) :: t => if String.eqb k key then without t key else (k, v) :: without t key
  end.

(** sorted(...) of texts *)
Fixpoint insert (x : string) (l : list string) : list string :=
  match l with
  | [] => [x]
  | y :: t => if String.leb x y then x :: l else y :: insert x t
  end.
Definition sorted (l : list string) : list string := fold_right insert [] l.

Section File.
(** glob.glob(pattern); how pydantic reads an integer from a text *)
Variable glob : string -> list string.
Variable numeral : string -> option Z.

(** Dict[str, str], lines 37-38 *)
Fixpoint texts (d : list (string * json)) : option (list (string * string)) :=
  match d with
  | [] => Some []
  | (k, JStr s) :: t => option_map (cons (k, s)) (texts t)
  | _ => None
  end.
Definition read_aliases (v : option json) : option (list (string * string)) :=
  match v with
  | None => Some []
  | Some (JObj d) => texts d
  | Some _ => None
  end.
(** an integer for pydantic *)
Definition integer (v : json) : option Z :=
  match v with
  | JInt z => Some z
  | JBool b => Some (if b then 1 else 0)%Z
  | JFloat (Fin r) => if Req_EM_T r (IZR (Int_part r)) then Some (Int_part r) else None
  | JStr s => numeral s
  | _ => None
  end.
(** Optional[PositiveInt], lines 40-41 *)
Definition read_max_samples (v : option json) : option (option nat) :=
  match v with
  | None | Some JNull => Some None
  | Some v => match integer v with
              | Some z => if (0 <? z)%Z then Some (Some (Z.to_nat z)) else None
              | None => None
              end
  end.
(** the Literal types, lines 43-56 *)
Definition read_mass_prior (v : option json) : option (option mass_prior_t) :=
  match v with
  | None | Some JNull => Some None
  | Some (JStr s) =>
    if String.eqb s "flat-detector-components" then Some (Some FlatDetectorComponents)
    else if String.eqb s "flat-detector-chirp-mass-ratio" then Some (Some FlatDetectorChirpRatio)
    else if String.eqb s "flat-source-components" then Some (Some FlatSourceComponents)
    else None
  | Some _ => None
  end.
Definition read_spin_prior (v : option json) : option bool :=
  match v with
  | None | Some JNull => Some false
  | Some (JStr s) => if String.eqb s "component" then Some true else None
  | Some _ => None
  end.
Definition read_distance_prior (v : option json) : option (option distance_prior_t) :=
  match v with
  | None | Some JNull => Some None
  | Some (JStr s) =>
    if String.eqb s "comoving" then Some (Some Comoving)
    else if String.eqb s "euclidean" then Some (Some Euclidean)
    else None
  | Some _ => None
  end.
(** cls of the remaining entries, line 97 *)
Definition construct (d : list (string * json)) : option loader :=
  match read_aliases (entry d "parameter_aliases"), read_max_samples (entry d "max_samples"),
        read_mass_prior (entry d "mass_prior"), read_spin_prior (entry d "spin_prior"),
        read_distance_prior (entry d "distance_prior") with
  | Some a, Some n, Some m, Some s, Some di => Some (Build_loader a n m s di)
  | _, _, _, _, _ => None
  end.
(** from_json, lines 78-97; [content] is what read_json returned, None if it raised.
    glob needs a text; a second value for filenames is a TypeError *)
Definition from_json (content : option json) : option (list string * loader) :=
  match content with
  | Some (JObj raw) =>
    match entry raw "regex" with
    | Some (JStr regex) =>
      let raw := without raw "regex" in
      match sorted (glob regex) with
      | [] => None
      | filenames =>
        match entry raw "filenames" with
        | Some _ => None
        | None => option_map (fun l => (filenames, l)) (construct raw)
        end
      end
    | _ => None
    end
  | _ => None
  end.

(** from_json and load in one go; [disk] is the table in a file, None if read_csv raises *)
Variable disk : string -> option frame.
Variable positions : Z -> nat -> nat -> list nat.
Variables logdVcdz z_to_DL dDLdz : X -> X.
Variable chieff_prior : X -> X -> X.
Variable chieff_chip_prior : X -> X -> X -> X.
Definition catalogue (content : option json) (parameters : list string) (seed : Z)
  : option (list (list (list X)) * list (list X)) :=
  match from_json content with
  | None => None
  | Some (filenames, l) =>
    match sequence (map disk filenames) with
    | None => None
    | Some frames => load l positions logdVcdz z_to_DL dDLdz chieff_prior chieff_chip_prior parameters frames seed
    end
  end.
End File.
