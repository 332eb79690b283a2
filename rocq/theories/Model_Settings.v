(** Model of the reading and checking of the sampler settings, FlowMCBased.driver
    (gwkanal/core/flowMC_based.py:822-935), of the choice of the local sampler (286-293), and of the
    template of the settings (gwkokab_scripts/flowMC_cfg_template.py:9-48). *)
From Coq Require Import String Ascii List Arith Bool ZArith Reals.
From Verif Require Import Model_X.
Import ListNotations.
Open Scope string_scope.

(** what json.load returns; floats may be infinite or NaN (Python's reader accepts them) *)
Inductive json :=
| JNull | JBool (b : bool) | JInt (z : Z) | JFloat (x : X) | JStr (s : string) | JList (l : list json)
| JObj (fields : list (string * json)).
(** the settings file: the value of a key *)
Definition settings := string -> option json.

(** isinstance(v, int), with its value; bool is a subclass of int *)
Definition int_value (v : json) : option Z :=
  match v with JInt z => Some z | JBool b => Some (if b then 1 else 0)%Z | _ => None end.
(** isinstance(v, (int, float)), with its value *)
Definition number (v : json) : option X :=
  match v with JFloat x => Some x | _ => match int_value v with Some z => Some (Fin (IZR z)) | None => None end end.
Definition is_some {A} (o : option A) : bool := match o with Some _ => true | None => false end.

(** lines 832-858: subscripts raise if the key is missing, get has a default *)
Definition default (name : string) : option json :=
  if String.eqb name "local_sampler_name" then Some (JStr "mala")
  else if String.eqb name "mass_matrix" then Some (JFloat (Fin 1))
  else if String.eqb name "n_leapfrog" then Some (JInt 10)
  else if String.eqb name "history_window" then Some (JInt 100)
  else if String.eqb name "rq_spline_range" then Some (JList [JFloat (Fin (-10)); JFloat (Fin 10)])
  else None.
Definition value (cfg : settings) (name : string) : option json :=
  match cfg name with Some v => Some v | None => default name end.

(** lines 862-886: the expected types *)
Inductive kind := KInt | KNumber | KStr | KMass | KList | KTuple | KBool.
Definition checked : list (string * kind) :=
  [("batch_size", KInt); ("chain_batch_size", KInt); ("global_thinning", KInt); ("learning_rate", KNumber);
   ("local_thinning", KInt); ("local_sampler_name", KStr); ("step_size", KNumber); ("mass_matrix", KMass);
   ("n_leapfrog", KInt); ("n_chains", KInt); ("n_epochs", KInt); ("n_global_steps", KInt); ("n_local_steps", KInt);
   ("n_max_examples", KInt); ("history_window", KInt); ("n_NFproposal_batch_size", KInt); ("n_production_loops", KInt);
   ("n_training_loops", KInt); ("rq_spline_hidden_units", KList); ("rq_spline_n_bins", KInt);
   ("rq_spline_n_layers", KInt); ("rq_spline_range", KTuple); ("verbose", KBool)].
(** isinstance(v, expected_type). rq_spline_range has been through tuple(...), which needs something
    to iterate over (line 857); lists and strings are sequences *)
Definition has_type (k : kind) (v : json) : bool :=
  match k, v with
  | KInt, _ => is_some (int_value v)
  | KNumber, _ => is_some (number v)
  | KStr, JStr _ => true
  | KMass, (JStr _ | JList _) => true
  | KMass, _ => is_some (number v)
  | KList, JList _ => true
  | KTuple, (JList _ | JStr _ | JObj _) => true
  | KBool, JBool _ => true
  | _, _ => false
  end.
(** lines 887-897, one pass of the loop *)
Definition check_entry (cfg : settings) (e : string * kind) : bool :=
  let (name, k) := e in
  match value cfg name with
  | None => false
  | Some v =>
    has_type k v
    && match k with
       | KInt => match int_value v with
                 | Some z => negb ((z <? 1)%Z && negb (String.eqb name "chain_batch_size"))
                 | None => false
                 end
       | _ => true
       end
  end.
(** lines 899-902 *)
Definition positive_int (v : json) : bool := match int_value v with Some z => (0 <? z)%Z | None => false end.
Definition check_hidden_units (cfg : settings) : bool :=
  match value cfg "rq_spline_hidden_units" with Some (JList l) => forallb positive_int l | _ => false end.

(** str.strip and str.lower, for ASCII text *)
Definition blank (c : ascii) : bool :=
  let n := nat_of_ascii c in ((9 <=? n) && (n <=? 13))%nat || ((28 <=? n) && (n <=? 32))%nat.
Definition lower_char (c : ascii) : ascii :=
  let n := nat_of_ascii c in if ((65 <=? n) && (n <=? 90))%nat then ascii_of_nat (n + 32) else c.
Fixpoint drop_blank (l : list ascii) : list ascii :=
  match l with [] => [] | c :: t => if blank c then drop_blank t else l end.
Definition strip (s : string) : string :=
  string_of_list_ascii (rev (drop_blank (rev (drop_blank (list_ascii_of_string s))))).
Definition lower (s : string) : string := string_of_list_ascii (map lower_char (list_ascii_of_string s)).
(** lines 904-908 *)
Definition sampler_name (cfg : settings) : option string :=
  match value cfg "local_sampler_name" with Some (JStr s) => Some (lower (strip s)) | _ => None end.
Definition check_sampler_name (cfg : settings) : bool :=
  match sampler_name cfg with Some s => String.eqb s "mala" || String.eqb s "hmc" | None => false end.

(** ** the mass matrix, lines 914-935 *)
Inductive mass := Matrix (m : nat -> nat -> X) | Unchecked (v : json).
Fixpoint numbers (l : list json) : option (list X) :=
  match l with
  | [] => Some []
  | v :: t => match number v, numbers t with Some x, Some r => Some (x :: r) | _, _ => None end
  end.
Fixpoint number_rows (l : list json) : option (list (list X)) :=
  match l with
  | [] => Some []
  | JList r :: t => match numbers r, number_rows t with Some x, Some rs => Some (x :: rs) | _, _ => None end
  | _ => None
  end.
Definition entry (rows : list (list X)) (i j : nat) : X := nth j (nth i rows []) (Fin 0).

Section Driver.
(** jnp.linalg.eigvalsh of a matrix with the given number of rows (external) *)
Variable eigvalsh : nat -> (nat -> nat -> X) -> list X.
Definition read_mass (n_dims : nat) (v : json) : option mass :=
  match number v with
  | Some x =>
    if xleb x (Fin 0) then None
    else Some (Matrix (fun i j => xmul (Fin (if (i =? j)%nat then 1%R else 0%R)) x))
  | None =>
    match v with
    | JList l =>
      match numbers l with
      | Some d =>
        (* a vector *)
        if (length d =? n_dims)%nat then
          if existsb (fun x => xleb x (Fin 0)) d then None
          else Some (Matrix (fun i j => if (i =? j)%nat then nth i d (Fin 0) else Fin 0))
        else None
      | None =>
        match number_rows l with
        | Some rows =>
          (* a matrix; rows of different lengths cannot be made into an array *)
          if ((length rows =? n_dims)%nat && forallb (fun r => (length r =? n_dims)%nat) rows) then
            if existsb (fun x => xleb x (Fin 0)) (eigvalsh n_dims (entry rows)) then None
            else Some (Matrix (entry rows))
          else None
        | None => None
        end
      end
    | _ => Some (Unchecked v)
    end
  end.

(** lines 822-935: the mass matrix handed to the sampler; None is an exception. n_dims is the number
    of coordinates of the initial positions (line 912). *)
Definition accept (n_dims : nat) (cfg : settings) : option mass :=
  if forallb (check_entry cfg) checked && check_hidden_units cfg && check_sampler_name cfg then
    match value cfg "mass_matrix" with Some v => read_mass n_dims v | None => None end
  else None.
End Driver.

(** lines 286-293 *)
Definition uses_hmc (cfg : settings) : bool :=
  match sampler_name cfg with Some s => negb (String.eqb s "mala") | None => false end.
(** lines 243-244: rows kept per loop *)
Definition kept_per_loop (cfg : settings) (steps thinning : string) : option nat :=
  match value cfg steps, value cfg thinning with
  | Some s, Some t =>
    match int_value s, int_value t with Some s, Some t => Some (Z.to_nat (s / t)) | _, _ => None end
  | _, _ => None
  end.

(** the template written by gwkokab_scripts/flowMC_cfg_template.py:9-48 *)
Definition template : list (string * json) :=
  [("chain_batch_size", JInt 0); ("n_chains", JInt 10); ("batch_size", JInt 1000); ("history_window", JInt 500);
   ("n_epochs", JInt 4); ("n_max_examples", JInt 100000); ("n_NFproposal_batch_size", JInt 10);
   ("n_global_steps", JInt 20); ("n_local_steps", JInt 300); ("global_thinning", JInt 1); ("local_thinning", JInt 1);
   ("n_production_loops", JInt 40); ("n_training_loops", JInt 15); ("local_sampler_name", JStr "hmc");
   ("step_size", JFloat (Fin (1 / 100))); ("n_leapfrog", JInt 5); ("mass_matrix", JFloat (Fin 1));
   ("learning_rate", JFloat (Fin (1 / 1000))); ("rq_spline_hidden_units", JList [JInt 128; JInt 128]);
   ("rq_spline_n_bins", JInt 8); ("rq_spline_n_layers", JInt 10);
   ("rq_spline_range", JList [JFloat (Fin (-10)); JFloat (Fin 10)]); ("verbose", JBool false)].
Fixpoint of_list (l : list (string * json)) : settings :=
  match l with [] => fun _ => None | (k, v) :: t => fun name => if String.eqb name k then Some v else of_list t name end.
