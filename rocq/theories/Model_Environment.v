(** What the package reads from the environment: the version string
    (gwkokab/version.py) and the settings of the log (gwkanal/utils/logger.py). *)
From Coq Require Import String Ascii List Bool Arith.
Import ListNotations.
Open Scope string_scope.

(** str.lower(), for the letters A to Z; no other character becomes one of a to z *)
Definition lower_char (c : ascii) : ascii :=
  let n := nat_of_ascii c in
  if ((65 <=? n) && (n <=? 90))%nat then ascii_of_nat (n + 32) else c.
Fixpoint lower (s : string) : string :=
  match s with
  | "" => ""
  | String c t => String (lower_char c) (lower t)
  end.
Definition one_of (s : string) (l : list string) : bool := existsb (String.eqb s) l.

(** ** version.py *)
(** MAJOR_VERSION, MINOR_VERSION and PATCH_VERSION, lines 14-16, put together in line 55 *)
Definition base_version : string := "0" ++ "." ++ "2" ++ "." ++ "1".
(** get_git_commit_hash, lines 19-40: [git] is what git prints without the blanks around it, None
    if it fails or does not exist *)
Definition commit_hash (git : option string) : option string := git.
(** get_version, lines 43-80: [nightly] is GWKOKAB_NIGHTLY_BUILD, [today] the date as YYYYMMDD.
    A failed assertion is None. *)
Definition get_version (nightly git : option string) (today : string) : option string :=
  match nightly with
  | None => Some base_version
  | Some v =>
    if one_of (lower v) ["1"; "0"; "true"; "false"] then
      if one_of (lower v) ["0"; "false"] then Some base_version
      else match commit_hash git with
           | Some hash => if String.eqb hash "" then Some (base_version ++ "+d" ++ today)
                          else Some (base_version ++ "+g" ++ hash)
           | None => Some (base_version ++ "+d" ++ today)
           end
    else None
  end.

(** ** logger.py *)
(** valid_levels, line 61 *)
Definition valid_levels : list string :=
  ["TRACE"; "DEBUG"; "INFO"; "SUCCESS"; "WARNING"; "ERROR"; "CRITICAL"].
Definition or_default (v : option string) (d : string) : string := match v with Some s => s | None => d end.
(** posixpath.join with two arguments *)
Fixpoint ends_in_slash (s : string) : bool :=
  match s with
  | "" => false
  | String c "" => Ascii.eqb c "/"
  | String _ t => ends_in_slash t
  end.
Definition join (a b : string) : string :=
  if prefix "/" b then b
  else if String.eqb a "" || ends_in_slash a then a ++ b
  else a ++ "/" ++ b.
(** set_log_level, lines 52-82: the level and the name of the log file, and the directory that is
    made; [now] is time_now(). os.makedirs("") raises, even with exist_ok; other reasons why a
    directory cannot be made are left out. *)
Record log := Log { log_level : string; log_filename : string; log_dir : string }.
Definition set_log_level (level dir file : option string) (now : string) : option log :=
  let log_level := or_default level "TRACE" in
  if one_of log_level valid_levels then
    let dir := or_default dir "./logs" in
    let file := or_default file ("gwkokab_" ++ now ++ ".log") in
    if String.eqb dir "" then None else Some (Log log_level (join dir file) dir)
  else None.

(** path.split("site-packages"), its first two parts; None if it has only one *)
Fixpoint drop (n : nat) (s : string) : string :=
  match n, s with
  | S n, String _ t => drop n t
  | _, _ => s
  end.
Fixpoint find_first (sep s : string) : option (string * string) :=
  if prefix sep s then Some ("", drop (String.length sep) s)
  else match s with
       | "" => None
       | String c t => option_map (fun p => (String c (fst p), snd p)) (find_first sep t)
       end.
Definition second_part (sep s : string) : option string :=
  match find_first sep s with
  | None => None
  | Some (_, rest) => match find_first sep rest with
                      | None => Some rest
                      | Some (part, _) => Some part
                      end
  end.
(** custom_format, lines 23-49: the path that is shown; [relpath] is os.path.relpath *)
Definition short_path (relpath : string -> string) (path : string) : string :=
  match second_part "site-packages" path with
  | Some part => drop 1 part
  | None => relpath path
  end.
