(** gwkokab_scripts/flowMC_info.py: infer_n_dims (35-50) and the use of the number it returns (314, 470-484). *)
From Coq Require Import String List ZArith Bool Reals.
From Verif Require Import Model_X Model_Settings Model_Scripts.
Import ListNotations.
Open Scope string_scope.

Section Infer.
(** int(text), external; None is a ValueError *)
Variable int_of_text : string -> option Z.
(** int(x) of a float: towards zero; inf and NaN raise *)
Definition trunc (x : R) : Z := if Rle_dec 0 x then Int_part x else (- Int_part (- x))%Z.
(** int(v), None is an exception; lists, objects and null raise a TypeError *)
Definition python_int (v : json) : option Z :=
  match v with
  | JInt z => Some z
  | JBool b => Some (if b then 1 else 0)%Z
  | JFloat (Fin x) => Some (trunc x)
  | JFloat _ => None
  | JStr s => int_of_text s
  | JNull | JList _ | JObj _ => None
  end.
(** infer_n_dims, 35-50; the exception of int is swallowed (43-44) *)
Definition infer_n_dims (bundle_config : settings) (cli_n_dims : option Z) : Z :=
  match cli_n_dims with
  | Some n => n
  | None =>
    match match bundle_config "n_dims" with Some v => python_int v | None => None end with
    | Some n => n
    | None =>
      match bundle_config "mass_matrix" with
      | Some (JList mm) => Z.of_nat (length mm)
      | _ => 0%Z
      end
    end
  end.
(** main, 314 and 470-484: the suggestions that are displayed; None stands for the message that n_dims is unknown *)
Definition suggestions (bundle_config : settings) (cli_n_dims : option Z) (n_chains kept_total_per_loop : Z) : option heuristics :=
  let n_dims := infer_n_dims bundle_config cli_n_dims in
  if (0 <? n_dims)%Z then generate_heuristics n_dims n_chains kept_total_per_loop else None.
End Infer.
