(** gwkokab_scripts/flowMC_cfg_template.py: get_cfg (8-50), format_json_with_gaps (53-80) and main (83-102), and
    Python's json.dumps (value, indent=4) and json.load, for text in printable ASCII.

    Simplified: a number is its literal text, so that the conversion between numbers and text is left out. *)
From Coq Require Import String Ascii List Bool Arith.
Import ListNotations.

Notation chars := (list ascii).
Definition text (s : string) : chars := list_ascii_of_string s.

Inductive json :=
| JNum (t : chars)
| JText (s : chars)
| JBool (b : bool)
| JNull
| JArr (l : list json)
| JDict (d : list (chars * json)).

Definition nl : ascii := "010".
Definition quote : ascii := "034".
Definition backslash : ascii := "092".
Definition space : ascii := " ".

(** ** json.dumps *)
Definition escape (c : ascii) : chars :=
  if Ascii.eqb c quote || Ascii.eqb c backslash then [backslash; c] else [c].
Definition dump_text (s : chars) : chars := quote :: flat_map escape s ++ [quote].
(** line break and indentation by four blanks per level *)
Definition line_break (level : nat) : chars := nl :: repeat space (4 * level).
Fixpoint join (sep : chars) (l : list chars) : chars :=
  match l with [] => [] | [x] => x | x :: l' => x ++ sep ++ join sep l' end.

Fixpoint dumps (level : nat) (v : json) : chars :=
  match v with
  | JNum t => t
  | JText s => dump_text s
  | JBool b => text (if b then "true" else "false")
  | JNull => text "null"
  | JArr [] => text "[]"
  | JArr l =>
      text "[" ++ line_break (S level) ++ join (text "," ++ line_break (S level)) (map (dumps (S level)) l)
      ++ line_break level ++ text "]"
  | JDict [] => text "{}"
  | JDict d =>
      text "{" ++ line_break (S level)
      ++ join (text "," ++ line_break (S level)) (map (fun kv => dump_text (fst kv) ++ text ": " ++ dumps (S level) (snd kv)) d)
      ++ line_break level ++ text "}"
  end.

(** ** str.splitlines, "\n".join *)
Fixpoint splitlines_from (cur s : chars) : list chars :=
  match s with
  | [] => match cur with [] => [] | _ => [cur] end
  | c :: s' => if Ascii.eqb c nl then cur :: splitlines_from [] s' else splitlines_from (cur ++ [c]) s'
  end.
Definition splitlines (s : chars) : list chars := splitlines_from [] s.

(** p in s, for texts *)
Fixpoint starts (p s : chars) : bool :=
  match p, s with
  | [], _ => true
  | a :: p', b :: s' => Ascii.eqb a b && starts p' s'
  | _, [] => false
  end.
Fixpoint contains (p s : chars) : bool :=
  starts p s || match s with [] => false | _ :: s' => contains p s' end.

(** section_headers (58-67) *)
Definition section_headers : list chars := map text
  ["batch_size"; "n_NFproposal_batch_size"; "n_global_steps"; "global_thinning"; "n_production_loops";
   "local_sampler_name"; "learning_rate"; "verbose"]%string.

(** the loop (74-78) *)
Definition insert_gaps (headers : list chars) (lines : list chars) : list chars :=
  fold_left (fun formatted_lines line =>
    (if existsb (fun header => contains (quote :: header ++ [quote]) line) headers
     then formatted_lines ++ [[]] else formatted_lines) ++ [line]) lines [].

(** format_json_with_gaps (53-80) *)
Definition format_json_with_gaps (cfg : list (chars * json)) : chars :=
  join [nl] (insert_gaps section_headers (splitlines (dumps 0 (JDict cfg)))).

(** get_cfg (8-50), in the order of the assignments *)
Definition get_cfg : list (chars * json) := map (fun kv => (text (fst kv), snd kv))
  [("chain_batch_size", JNum (text "0")); ("n_chains", JNum (text "10"));
   ("batch_size", JNum (text "1000")); ("history_window", JNum (text "500")); ("n_epochs", JNum (text "4"));
   ("n_max_examples", JNum (text "100000"));
   ("n_NFproposal_batch_size", JNum (text "10"));
   ("n_global_steps", JNum (text "20")); ("n_local_steps", JNum (text "300"));
   ("global_thinning", JNum (text "1")); ("local_thinning", JNum (text "1"));
   ("n_production_loops", JNum (text "40")); ("n_training_loops", JNum (text "15"));
   ("local_sampler_name", JText (text "hmc")); ("step_size", JNum (text "0.01")); ("n_leapfrog", JNum (text "5"));
   ("mass_matrix", JNum (text "1.0"));
   ("learning_rate", JNum (text "0.001")); ("rq_spline_hidden_units", JArr [JNum (text "128"); JNum (text "128")]);
   ("rq_spline_n_bins", JNum (text "8")); ("rq_spline_n_layers", JNum (text "10"));
   ("rq_spline_range", JArr [JNum (text "-10.0"); JNum (text "10.0")]);
   ("verbose", JBool false)]%string.
