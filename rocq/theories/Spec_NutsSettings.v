(** Vocabulary of the statements about the settings of a NumPyro run. *)
From Coq Require Import String List ZArith Bool.
From Verif Require Import Model_X Model_Settings Model_NutsSettings.
Import ListNotations.
Open Scope string_scope.

(** the setting [key] of section [section] of the file is [v] *)
Definition in_section (file : json) (section key : string) (v : json) : Prop :=
  exists sections settings, file = JObj sections /\ In (section, JObj settings) sections /\ In (key, v) settings.
(** json.load keeps one value for each key *)
Definition json_object (file : json) : Prop :=
  exists sections, file = JObj sections /\ NoDup (map fst sections) /\
    forall section settings, In (section, JObj settings) sections -> NoDup (map fst settings).
Definition has_section (file : json) (section : string) : Prop :=
  exists sections settings, file = JObj sections /\ In (section, JObj settings) sections.
(** the value is given, or is not given and is [d] *)
Definition given_or (file : json) (section key : string) (d v : json) : Prop :=
  in_section file section key v \/ ((forall w, ~ in_section file section key w) /\ v = d).
Definition a_count (v : json) (n : Z) : Prop := v = JInt n \/ (exists b, v = JBool b /\ n = if b then 1%Z else 0%Z).
(** something that has elements *)
Definition iterable (v : json) : Prop := (exists l, v = JList l) \/ (exists s, v = JStr s) \/ (exists f, v = JObj f).
