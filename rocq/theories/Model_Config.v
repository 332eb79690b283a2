(** Model of the lookup of priors in the configuration: gwkanal/utils/regex.py and
    gwkanal/utils/priors.py (get_processed_priors). *)
From Coq Require Import String Reals List Bool Arith.
From Verif Require Import Model_X Model_Joint Model_Guru.
Import ListNotations.
Open Scope nat_scope.

(** a JSON value of the prior file; [COther b]: anything else, with its truth value *)
Inductive cval :=
| CNull
| CNum (x : X)
| CStr (s : string)
| CDict (fields : list (string * cval))
| COther (truth : bool).

(** Python truth value *)
Definition truthy (v : cval) : bool :=
  match v with
  | CNull => false
  | CNum (Fin r) => if Req_EM_T r 0 then false else true
  | CNum _ => true
  | CStr s => negb (String.eqb s "")
  | CDict fs => match fs with [] => false | _ => true end
  | COther b => b
  end.
Definition is_null (v : option cval) : bool := match v with None | Some CNull => true | _ => false end.
Definition is_dict (v : cval) : bool := match v with CDict _ => true | _ => false end.

Section Config.
(** re.fullmatch(pattern, string) is not None *)
Variable fullmatch : string -> string -> bool.

Definition config := list (string * cval).

(** first entry whose pattern matches, regex.py:62-68 *)
Fixpoint first_match (c : config) (s : string) : option cval :=
  match c with
  | [] => None
  | (p, v) :: t => if fullmatch p s then Some v else first_match t s
  end.

(** first loop of match_all, regex.py:48-68 *)
Definition match_step (c : config) (st : list (string * cval) * list string) (s : string)
  : list (string * cval) * list string :=
  let '(matches, duplicates) := st in
  let by_pattern :=
      (dset matches s (match first_match c s with Some v => v | None => CNull end), duplicates) in
  match dget c s with
  | Some v =>
    if truthy v then
      match v with
      | CStr t => if is_null (dget matches t) then (matches, duplicates ++ [s])
                  else (dset matches s v, duplicates)
      | _ => (dset matches s v, duplicates)
      end
    else by_pattern
  | None => by_pattern
  end.

(** inner loop for one duplicate, regex.py:72-80; [target] is the name it is an alias of *)
Fixpoint duplicate_loop (c : config) (dup target : string) (matches : list (string * cval)) (found : bool)
  : list (string * cval) * bool :=
  match c with
  | [] => (matches, found)
  | (p, v) :: t =>
    if negb (is_dict v) && fullmatch p target then (dset matches dup v, true)
    else if is_dict v then duplicate_loop t dup target (dset matches dup (CStr target)) true
    else duplicate_loop t dup target matches found
  end.
Definition duplicate_step (c : config) (matches : list (string * cval)) (dup : string)
  : list (string * cval) :=
  match dget c dup with
  | Some (CStr target) =>
    let '(m, found) := duplicate_loop c dup target matches false in
    if found then m else dset m dup CNull
  | _ => matches
  end.

(** match_all, regex.py:28-85 (the warning is not modelled) *)
Definition match_all (strings : list string) (c : config) : list (string * cval) :=
  let '(matches, duplicates) := fold_left (match_step c) strings ([], []) in
  fold_left (duplicate_step c) duplicates matches.

(** get_processed_priors, priors.py:182-232.  [available] is _available_prior (None raises);
    [make name fields kwargs] calls the constructor with the fields of the entry and the keyword
    arguments supplied later. *)
Section Processed.
Context {K : Type}.
Variable available : string -> bool.
Variable make : string -> list (string * cval) -> list (string * list X) -> dist K.

Definition dpop {A} (d : list (string * A)) (k : string) : list (string * A) :=
  filter (fun p => negb (String.eqb (fst p) k)) d.
Definition is_str (p : string * cval) : bool := match snd p with CStr _ => true | _ => false end.
Definition str_of (p : string * cval) : string * string :=
  (fst p, match snd p with CStr s => s | _ => EmptyString end).

Definition process (v : cval) : option (pvalue K) :=
  match v with
  | CNull => Some VNone
  | CNum x => Some (VNum x)
  | CStr s => Some (VStr s)
  | COther _ => Some VOther
  | CDict fields =>
    match dget fields "dist" with
    | Some (CStr name) =>
      if String.eqb name "" || negb (available name) then None
      else
        let rest := dpop fields "dist" in
        if existsb is_str rest
        then Some (VLazy (make name (filter (fun p => negb (is_str p)) rest))
                         (map str_of (filter is_str rest)))
        else Some (VDist (make name rest []))
    | _ => None
    end
  end.

Definition get_processed_priors (params : list string) (c : config) : option (list (string * pvalue K)) :=
  let matched := match_all params c in
  if forallb (fun p => din matched p) params
  then map_opt (fun p => option_map (fun v => (fst p, v)) (process (snd p))) matched
  else None.
End Processed.
End Config.

(** ** per-component parameters, gwkokab/models/hybrids/_ncombination.py *)
Section Component.
Context {V : Type}.
(** values that may be None *)
Definition pdict := list (string * option V).

(** _fetch_first_matching_value, _ncombination.py:51-72 *)
Fixpoint fetch_first (params : pdict) (names : list string) : option V :=
  match names with
  | [] => None
  | k :: t => match dget params k with Some v => v | None => fetch_first params t end
  end.
(** _get_parameter, _ncombination.py:75-87; the outer option is an exception *)
Definition get_parameter (params : pdict) (names : list string) (is_necessary : bool) (default : option V)
  : option (option V) :=
  match fetch_first params names with
  | Some v => Some (Some v)
  | None =>
    match default with
    | Some d => Some (Some d)
    | None => if is_necessary then None else Some None
    end
  end.
End Component.

(** ** wipe_log_rate, gwkanal/utils/ppd.py:18-47 *)
Section Wipe.
Context {A : Type}.
(** np.delete along the last axis of one row; an index out of range raises *)
Definition delete_at (i : nat) (row : list A) : list A := firstn i row ++ skipn (S i) row.
Definition starts_with (p s : string) : bool := String.prefix p s.
(** one removal: the inner loop lowers the indices above [index] *)
Definition wipe_one (key : string) (st : list (string * nat) * list (list A))
  : option (list (string * nat) * list (list A)) :=
  let '(mapping, rows) := st in
  match dget mapping key with
  | None => None
  | Some index =>
    let mapping := dpop mapping key in
    if forallb (fun r => Nat.ltb index (List.length r)) rows then
      Some (map (fun p => (fst p, if Nat.ltb index (snd p) then snd p - 1 else snd p)) mapping,
            map (delete_at index) rows)
    else None
  end.
(** the outer loop over a copy of the keys; returns the samples, the (mutated) mapping and the
    names added to the constants with value 0 *)
Definition wipe_log_rate (mapping : list (string * nat)) (rows : list (list A))
  : option (list (string * nat) * list (list A) * list string) :=
  fold_left
    (fun acc key =>
       match acc with
       | None => None
       | Some (mapping, rows, consts) =>
         if starts_with "log_rate" key then
           match wipe_one key (mapping, rows) with
           | None => None
           | Some (m, r) => Some (m, r, consts ++ [key])
           end
         else Some (mapping, rows, consts)
       end)
    (map fst mapping) (Some (mapping, rows, [])).
End Wipe.
