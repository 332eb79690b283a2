(** What an entry of the prior configuration stands for. *)
From Coq Require Import String List.
From Verif Require Import Model_X Model_Joint Model_Guru Model_Config.
Import ListNotations.
Open Scope string_scope.
Open Scope list_scope.

Section Meaning.
Context {K : Type}.
Variable available : string -> bool.
Variable make : string -> list (string * cval) -> list (string * list X) -> dist K.

(** the fields of an entry split into the ones naming other parameters and the rest, both in order *)
Inductive split_fields : list (string * cval) -> list (string * string) -> list (string * cval) -> Prop :=
| split_nil : split_fields [] [] []
| split_name k s fs names rest : split_fields fs names rest -> split_fields ((k, CStr s) :: fs) ((k, s) :: names) rest
| split_rest k v fs names rest : (forall s, v <> CStr s) -> split_fields fs names rest ->
    split_fields ((k, v) :: fs) names ((k, v) :: rest).

Inductive stands_for : cval -> pvalue K -> Prop :=
| sf_null : stands_for CNull VNone
| sf_constant x : stands_for (CNum x) (VNum x)
| sf_alias s : stands_for (CStr s) (VStr s)
| sf_other b : stands_for (COther b) VOther
| sf_distribution before name after fields :
    name <> "" -> available name = true -> split_fields (before ++ after) [] fields ->
    stands_for (CDict (before ++ ("dist", CStr name) :: after)) (VDist (make name fields []))
| sf_lazy before name after names fields :
    name <> "" -> available name = true -> split_fields (before ++ after) names fields -> names <> [] ->
    stands_for (CDict (before ++ ("dist", CStr name) :: after)) (VLazy (make name fields) names).
(** the keys of every entry that is a dictionary are distinct *)
Definition proper_fields (v : cval) : Prop :=
  match v with CDict fields => NoDup (map fst fields) | _ => True end.
(** an entry that is a dictionary names a known distribution *)
Definition names_distribution (v : cval) : Prop :=
  match v with
  | CDict fields => exists name, In ("dist", CStr name) fields /\ name <> "" /\ available name = true
  | _ => True
  end.
End Meaning.
