(** How json.load reads a file: tokens first, then values.  Whitespace between tokens has no meaning, and a line break
    inside a text is an error. *)
From Coq Require Import String Ascii List Bool Arith.
From Verif Require Import Model_Template.
Import ListNotations.

Inductive token := TPunct (c : ascii) | TText (s : chars) | TWord (w : chars).
Definition is_blank (c : ascii) : bool := existsb (Ascii.eqb c) [" "; "009"; "010"; "013"]%char.
Definition is_punct (c : ascii) : bool := existsb (Ascii.eqb c) ["{"; "}"; "["; "]"; ","; ":"]%char.
(** a character of a number, of true, false or null *)
Definition is_word (c : ascii) : bool :=
  negb (is_blank c || is_punct c || Ascii.eqb c quote || Ascii.eqb c backslash).

Inductive state := Out | InText (acc : chars) | Esc (acc : chars) | InWord (acc : chars).

(** a character outside of texts and words *)
Definition out (c : ascii) : option (list token * state) :=
  if is_blank c then Some ([], Out)
  else if is_punct c then Some ([TPunct c], Out)
  else if Ascii.eqb c quote then Some ([], InText [])
  else if Ascii.eqb c backslash then None
  else Some ([], InWord [c]).
Definition next (s : state) (c : ascii) : option (list token * state) :=
  match s with
  | Out => out c
  | InWord w => if is_word c then Some ([], InWord (w ++ [c]))
                else match out c with Some (ts, s') => Some (TWord w :: ts, s') | None => None end
  | InText t => if Ascii.eqb c quote then Some ([TText t], Out)
                else if Ascii.eqb c backslash then Some ([], Esc t)
                else if Ascii.eqb c nl then None else Some ([], InText (t ++ [c]))
  | Esc t => if Ascii.eqb c quote || Ascii.eqb c backslash then Some ([], InText (t ++ [c])) else None
  end.
Fixpoint lex (s : state) (cs : chars) : option (list token) :=
  match cs with
  | [] => match s with Out => Some [] | InWord w => Some [TWord w] | _ => None end
  | c :: cs' =>
      match next s c with
      | Some (ts, s') => match lex s' cs' with Some r => Some (ts ++ r) | None => None end
      | None => None
      end
  end.

Fixpoint same_text (a b : chars) : bool :=
  match a, b with
  | [], [] => true
  | x :: a', y :: b' => Ascii.eqb x y && same_text a' b'
  | _, _ => false
  end.
Definition word_value (w : chars) : json :=
  if same_text w (text "true") then JBool true
  else if same_text w (text "false") then JBool false
  else if same_text w (text "null") then JNull
  else JNum w.

(** recursive descent *)
Fixpoint value (n : nat) (ts : list token) : option (json * list token) :=
  match n with
  | O => None
  | S n' =>
      match ts with
      | TWord w :: r => Some (word_value w, r)
      | TText s :: r => Some (JText s, r)
      | TPunct "["%char :: TPunct "]"%char :: r => Some (JArr [], r)
      | TPunct "["%char :: r => match items n' r with Some (l, r') => Some (JArr l, r') | None => None end
      | TPunct "{"%char :: TPunct "}"%char :: r => Some (JDict [], r)
      | TPunct "{"%char :: r => match members n' r with Some (d, r') => Some (JDict d, r') | None => None end
      | _ => None
      end
  end
with items (n : nat) (ts : list token) : option (list json * list token) :=
  match n with
  | O => None
  | S n' =>
      match value n' ts with
      | Some (v, TPunct "]"%char :: r) => Some ([v], r)
      | Some (v, TPunct ","%char :: r) => match items n' r with Some (l, r') => Some (v :: l, r') | None => None end
      | _ => None
      end
  end
with members (n : nat) (ts : list token) : option (list (chars * json) * list token) :=
  match n with
  | O => None
  | S n' =>
      match ts with
      | TText k :: TPunct ":"%char :: r0 =>
          match value n' r0 with
          | Some (v, TPunct "}"%char :: r) => Some ([(k, v)], r)
          | Some (v, TPunct ","%char :: r) => match members n' r with Some (d, r') => Some ((k, v) :: d, r') | None => None end
          | _ => None
          end
      | _ => None
      end
  end.

Definition json_load (s : chars) : option json :=
  match lex Out s with
  | Some ts => match value (2 * length ts + 1) ts with Some (v, []) => Some v | _ => None end
  | None => None
  end.

(** what Python can print: texts in printable ASCII, numbers as one word that is not a name *)
Definition printable (s : chars) : Prop := Forall (fun c => 32 <= nat_of_ascii c <= 126) s.
Definition number_text (t : chars) : Prop :=
  t <> [] /\ Forall (fun c => is_word c = true) t /\ t <> text "true" /\ t <> text "false" /\ t <> text "null".
Fixpoint jsonable (v : json) : Prop :=
  match v with
  | JNum t => number_text t
  | JText s => printable s
  | JBool _ | JNull => True
  | JArr l => fold_right (fun x acc => jsonable x /\ acc) True l
  | JDict d => fold_right (fun kv acc => (printable (fst kv) /\ jsonable (snd kv)) /\ acc) True d
  end.

(** the lines of a file *)
Fixpoint lines_of (s : chars) : list chars :=
  match s with
  | [] => [[]]
  | c :: s' => if Ascii.eqb c nl then [] :: lines_of s'
               else match lines_of s' with l :: ls => (c :: l) :: ls | [] => [[c]] end
  end.

(** a text without quotation marks and backslashes *)
Definition plain_text (s : chars) : Prop := printable s /\ ~ In quote s /\ ~ In backslash s.
(** values as in the template: numbers, booleans, null, lists of them, and texts that are not names of sections *)
Definition scalar (v : json) : Prop :=
  match v with JNum t => number_text t | JBool _ | JNull => True | _ => False end.
Definition template_value (v : json) : Prop :=
  match v with
  | JText s => plain_text s /\ ~ In s section_headers
  | JArr l => Forall scalar l
  | _ => scalar v
  end.
Definition template_like (cfg : list (chars * json)) : Prop :=
  Forall (fun kv => plain_text (fst kv) /\ template_value (snd kv)) cfg.

(** the lines of the file, entry by entry: the entry itself as json.dumps prints it, after an empty line if [first] *)
Fixpoint block_lines (first : chars -> Prop) (cfg : list (chars * json)) (ls : list chars) : Prop :=
  match cfg with
  | [] => ls = [text "}"]
  | (k, v) :: cfg' =>
      exists gap rest,
        ls = (gap ++ lines_of (text "    " ++ dump_text k ++ text ": " ++ dumps 1 v
                               ++ text (match cfg' with [] => "" | _ => "," end)) ++ rest)%list
        /\ (first k -> gap = [[]]) /\ (~ first k -> gap = [])
        /\ block_lines first cfg' rest
  end.
