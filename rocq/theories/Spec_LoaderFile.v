(** Vocabulary of the statements about the settings file of the loader. *)
From Coq Require Import String List ZArith Reals Permutation Sorting.Sorted.
From Verif Require Import Model_X Model_Settings Model_Discrete.
Import ListNotations.
Open Scope string_scope.

(** a key of a dictionary and its value *)
Definition has (d : list (string * json)) (k : string) (v : json) : Prop := In (k, v) d.
Definition lacks (d : list (string * json)) (k : string) : Prop := forall v, ~ In (k, v) d.
(** a dictionary has every key once *)
Definition dictionary (d : list (string * json)) : Prop := NoDup (map fst d).

(** names in increasing order, none twice *)
Definition increasing (l : list string) : Prop := StronglySorted (fun a b => String.compare a b = Lt) l.

(** an optional setting that is left out or null *)
Definition unset (d : list (string * json)) (k : string) : Prop := lacks d k \/ has d k JNull.

(** the values of max_samples that stand for the number [z]; [numeral] reads a text *)
Inductive stands_for (numeral : string -> option Z) (z : Z) : json -> Prop :=
  | as_integer : stands_for numeral z (JInt z)
  | as_float : stands_for numeral z (JFloat (Fin (IZR z)))
  | as_true : z = 1%Z -> stands_for numeral z (JBool true)
  | as_false : z = 0%Z -> stands_for numeral z (JBool false)
  | as_text s : numeral s = Some z -> stands_for numeral z (JStr s).

Definition mass_names : list (string * mass_prior_t) :=
  [("flat-detector-components", FlatDetectorComponents);
   ("flat-detector-chirp-mass-ratio", FlatDetectorChirpRatio);
   ("flat-source-components", FlatSourceComponents)].
Definition distance_names : list (string * distance_prior_t) := [("comoving", Comoving); ("euclidean", Euclidean)].

(** the file asks for the loader *)
Record asks_for (numeral : string -> option Z) (d : list (string * json)) (l : loader) : Prop := {
  asks_aliases : (lacks d "parameter_aliases" /\ parameter_aliases l = []) \/
    has d "parameter_aliases" (JObj (map (fun a => (fst a, JStr (snd a))) (parameter_aliases l)));
  asks_max_samples : match max_samples l with
    | None => unset d "max_samples"
    | Some n => (0 < n)%nat /\ exists v, has d "max_samples" v /\ stands_for numeral (Z.of_nat n) v
    end;
  asks_mass_prior : match mass_prior l with
    | None => unset d "mass_prior"
    | Some m => exists s, In (s, m) mass_names /\ has d "mass_prior" (JStr s)
    end;
  asks_spin_prior : if component_spin l then has d "spin_prior" (JStr "component") else unset d "spin_prior";
  asks_distance_prior : match distance_prior l with
    | None => unset d "distance_prior"
    | Some p => exists s, In (s, p) distance_names /\ has d "distance_prior" (JStr s)
    end
}.

(** the keys that mean something *)
Definition known_keys : list string :=
  ["regex"; "filenames"; "parameter_aliases"; "max_samples"; "mass_prior"; "spin_prior"; "distance_prior"].
