(** Vocabulary of the statements about the environment. *)
From Coq Require Import String Ascii List Bool.
Import ListNotations.
Open Scope string_scope.

(** the two texts differ at most in the case of the letters A to Z *)
Definition letters : list (ascii * ascii) :=
  combine (list_ascii_of_string "ABCDEFGHIJKLMNOPQRSTUVWXYZ") (list_ascii_of_string "abcdefghijklmnopqrstuvwxyz").
Definition same_letter (a b : ascii) : Prop := a = b \/ In (a, b) letters.
(** [s] is [word], which has no capitals, but for capitals *)
Definition reads (s word : string) : Prop :=
  Forall2 same_letter (list_ascii_of_string s) (list_ascii_of_string word).

(** a character of a version number after the plus sign *)
Definition version_char (c : ascii) : Prop :=
  In c (list_ascii_of_string "0123456789abcdefghijklmnopqrstuvwxyz").
Definition version_text (s : string) : Prop :=
  s <> "" /\ Forall version_char (list_ascii_of_string s).
(** a version as PEP 440 has it, for this release *)
Definition well_formed (v : string) : Prop :=
  v = "0.2.1" \/ exists s, v = "0.2.1+" ++ s /\ version_text s.

(** [s] contains [sep] *)
Definition contains (sep s : string) : Prop := exists a b, s = a ++ sep ++ b.
(** [s] contains [sep] in no two places *)
Definition at_most_once (sep s : string) : Prop :=
  forall a b a' b', s = a ++ sep ++ b -> s = a' ++ sep ++ b' -> a = a'.
(** [s] is the end of [path] *)
Definition end_of (s path : string) : Prop := exists a, path = a ++ s.
(** [file] lies in [dir] *)
Definition lies_in (dir file : string) : Prop :=
  exists name, file = dir ++ "/" ++ name \/ (end_of "/" dir /\ file = dir ++ name).
(** an absolute path *)
Definition absolute (file : string) : Prop := exists a, file = "/" ++ a.
