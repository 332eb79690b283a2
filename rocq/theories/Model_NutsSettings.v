(** Model of the reading of the settings of a NumPyro run: NumpyroBased.driver and the first part of _run_mcmc
    (gwkanal/core/numpyro_based.py:58-99, 105-155), and of the template of the settings
    (gwkokab_scripts/numpyro_cfg_template.py:9-40).

    The signatures of numpyro.infer.NUTS and MCMC are predicates on keyword names. What the two constructors do with
    the values is not modelled; the chains themselves and their files are in Model_Numpyro. *)
From Coq Require Import String Ascii List Arith Bool ZArith Reals.
From Verif Require Import Model_X Model_Settings.
Import ListNotations.
Open Scope string_scope.

(** a dictionary that json.load returned: the keys are distinct *)
Definition dict := list (string * json).
Fixpoint find_key (k : string) (d : dict) : option json :=
  match d with [] => None | (k', v) :: t => if String.eqb k' k then Some v else find_key k t end.
(** d.pop(k, default): the value and the dictionary that is left *)
Definition without (k : string) (d : dict) : dict := filter (fun kv => negb (String.eqb (fst kv) k)) d.

(** keyword arguments: values from the file, and lists of tuples *)
Inductive arg := AJson (v : json) | ATuples (l : list (list json)).
(** tuple(v): the elements of a list, the letters of a text, the keys of a dictionary; None is a TypeError *)
Definition tuple_of (v : json) : option (list json) :=
  match v with
  | JList l => Some l
  | JStr s => Some (map (fun c => JStr (String c "")) (list_ascii_of_string s))
  | JObj f => Some (map (fun kv => JStr (fst kv)) f)
  | _ => None
  end.
Fixpoint tuples (l : list json) : option (list (list json)) :=
  match l with
  | [] => Some []
  | v :: t => match tuple_of v, tuples t with Some a, Some b => Some (a :: b) | _, _ => None end
  end.
(** lines 127-134 *)
Definition dense_arg (v : option json) : option arg :=
  match v with
  | None => Some (AJson (JBool false))
  | Some (JList l) => option_map ATuples (tuples l)
  | Some v => Some (AJson v)
  end.

(** the calls of one run: NUTS(logpdf, ...), MCMC(kernel, ...), and the number of chains of each mcmc.run *)
Record calls := Calls { nuts_args : list (string * arg); mcmc_args : list (string * arg); runs : list Z }.

Section Driver.
(** keyword parameters of NUTS and of MCMC, without the first one, which is given by position *)
Variables nuts_ok mcmc_ok : string -> bool.
Variable n_devices : nat.

(** lines 66-80: the method, the total number of chains and the size of a batch; None is a KeyError, a TypeError or a
    ZeroDivisionError *)
Definition is_text (v : json) (s : string) : bool := match v with JStr t => String.eqb t s | _ => false end.
Definition plan (mcmc_cfg : dict) : option (json * Z * Z) :=
  match find_key "chain_method" mcmc_cfg with
  | None => None
  | Some chain_method =>
    let chain_method := if negb (is_text chain_method "parallel") && (1 <? n_devices)%nat then JStr "parallel" else chain_method in
    match int_value (match find_key "num_chains" mcmc_cfg with Some v => v | None => JInt 1 end) with
    | None => None
    | Some n_chains =>
      let batch_size := if is_text chain_method "vectorized" then n_chains else Z.min n_chains (Z.of_nat n_devices) in
      if (batch_size =? 0)%Z then None
      else Some (if (batch_size =? 1)%Z then JStr "sequential" else chain_method, n_chains, batch_size)
    end
  end.
(** lines 91-99: range(n_batches), then what remains *)
Definition run_list (n_chains batch_size : Z) : list Z :=
  let n_batches := (n_chains / batch_size)%Z in
  let remaining := (n_chains - n_batches * batch_size)%Z in
  (repeat batch_size (Z.to_nat n_batches) ++ (if (0 <? remaining)%Z then [remaining] else []))%list.
(** MCMC(kernel, num_chains=..., chain_method=..., **mcmc_cfg): num_warmup and num_samples have no default *)
Definition call_mcmc (mcmc_cfg : dict) : option (list (string * arg) * list Z) :=
  match plan mcmc_cfg with
  | None => None
  | Some (chain_method, n_chains, batch_size) =>
    let rest := without "num_chains" (without "chain_method" mcmc_cfg) in
    if forallb (fun kv => mcmc_ok (fst kv)) rest
       && existsb (fun kv => String.eqb (fst kv) "num_warmup") rest
       && existsb (fun kv => String.eqb (fst kv) "num_samples") rest
    then Some (("num_chains", AJson (JInt batch_size)) :: ("chain_method", AJson chain_method)
               :: map (fun kv => (fst kv, AJson (snd kv))) rest,
               run_list n_chains batch_size)
    else None
  end.
(** NUTS(logpdf, dense_mass=dense_mass, **kernel_cfg), lines 127-136 *)
Definition call_nuts (kernel_cfg : dict) : option (list (string * arg)) :=
  match dense_arg (find_key "dense_mass" kernel_cfg) with
  | None => None
  | Some dense_mass =>
    let rest := without "dense_mass" kernel_cfg in
    if forallb (fun kv => nuts_ok (fst kv)) rest
    then Some (("dense_mass", dense_mass) :: map (fun kv => (fst kv, AJson (snd kv))) rest)
    else None
  end.
(** driver, lines 115-155: the branches for debug_nans, profile_memory and check_leaks make the same call *)
Definition driver (file : json) : option calls :=
  match file with
  | JObj sampler_cfg =>
    match find_key "kernel" sampler_cfg with
    | Some (JObj kernel_cfg) =>
      match find_key "mcmc" (without "kernel" sampler_cfg) with
      | Some (JObj mcmc_cfg) =>
        match call_nuts kernel_cfg, call_mcmc mcmc_cfg with
        | Some n, Some (m, r) => Some (Calls n m r)
        | _, _ => None
        end
      | _ => None
      end
    | _ => None
    end
  | _ => None
  end.
End Driver.

(** get_cfg, gwkokab_scripts/numpyro_cfg_template.py:19-40 *)
Definition numpyro_template : json :=
  JObj [("kernel", JObj [("step_size", JFloat (Fin 1)); ("inverse_mass_matrix", JNull); ("adapt_step_size", JBool true);
                         ("adapt_mass_matrix", JBool true); ("dense_mass", JBool false);
                         ("target_accept_prob", JFloat (Fin (8 / 10))); ("max_tree_depth", JInt 8);
                         ("find_heuristic_step_size", JBool false); ("forward_mode_differentiation", JBool false);
                         ("regularize_mass_matrix", JBool true)]);
        ("mcmc", JObj [("num_warmup", JInt 1000); ("num_samples", JInt 2000); ("num_chains", JInt 10); ("thinning", JInt 1);
                       ("chain_method", JStr "parallel"); ("progress_bar", JBool true); ("jit_model_args", JBool false)])].
