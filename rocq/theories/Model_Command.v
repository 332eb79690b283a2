(** Model of the command lines of the analyses and of the generators: the argument parsers, the main functions
    and the constructors they call.

    argparse is modelled as its documentation and source describe it for parsers without positional arguments:
    long options, unambiguous abbreviations, --option=value, repeated options, store_true, append with nargs="+",
    required options, mutually exclusive groups. Not modelled: a bare "--" (the model rejects it), option files,
    messages and exit codes; [None] stands for any way of not running (usage error, help, exception). The
    conversions int(...) and float(...) of a text are functions given to the model; a float is represented by the
    text it was read from. The logger and the data loader's own configuration file are not modelled: the loader
    is represented by the name of that file. *)
From Coq Require Import String Ascii List ZArith Arith Bool.
From Verif Require Import Model_NPLMG Model_Smoothed.
Import ListNotations.
Open Scope string_scope.

(** values of attributes of the namespace and of keyword arguments; functions and classes are represented by
    their names, as strings *)
Inductive value :=
  | VNone
  | VBool (b : bool)
  | VInt (z : Z)
  | VFloat (text : string)
  | VStr (s : string)
  | VLists (l : list (list string)).
Definition env := list (string * value).
Fixpoint get (e : env) (k : string) : option value :=
  match e with
  | [] => None
  | (k', v) :: t => if String.eqb k' k then Some v else get t k
  end.
Fixpoint set (e : env) (k : string) (v : value) : env :=
  match e with
  | [] => [(k, v)]
  | (k', w) :: t => if String.eqb k' k then (k', v) :: t else (k', w) :: set t k v
  end.

(** ** argparse *)
(** the -h/--help that every parser has; store_true; type=int, float, str; nargs="+" with action="append" *)
Inductive okind := OHelp | OFlag | OInt | OFloat | OStr | OAppend.
Record opt := Opt { o_name : string; o_kind : okind; o_default : value; o_required : bool; o_group : option string }.
Definition help_opt : opt := Opt "--help" OHelp VNone false None.
(** ArgumentParser() followed by add_argument for every option: an option string that is in use is an error *)
Definition build (opts : list opt) : option (list opt) :=
  fold_left (fun acc o =>
    match acc with
    | None => None
    | Some p => if existsb (fun o' => String.eqb (o_name o') (o_name o)) p then None else Some (p ++ [o])%list
    end) opts (Some [help_opt]).

(** dest: the option string without the dashes in front, - replaced by _ *)
Fixpoint underscores (s : string) : string :=
  match s with
  | "" => ""
  | String c t => String (if Ascii.eqb c "-" then "_"%char else c) (underscores t)
  end.
Definition dest (name : string) : string :=
  match name with
  | String _ (String _ t) => underscores t
  | _ => name
  end.

(** s.split("=", 1) if there is an = *)
Fixpoint cut (s : string) : option (string * string) :=
  match s with
  | "" => None
  | String c t => if Ascii.eqb c "=" then Some ("", t) else option_map (fun p => (String c (fst p), snd p)) (cut t)
  end.
Fixpoint has_space (s : string) : bool :=
  match s with "" => false | String c t => Ascii.eqb c " " || has_space t end.
Definition digit (c : ascii) : bool := ((48 <=? nat_of_ascii c) && (nat_of_ascii c <=? 57))%nat.
Fixpoint all_digits (s : string) : bool :=
  match s with "" => true | String c t => digit c && all_digits t end.
(** d*.d+ *)
Fixpoint decimal_point (s : string) : bool :=
  match s with
  | "" => false
  | String c t => if Ascii.eqb c "." then all_digits t && negb (String.eqb t "") else digit c && decimal_point t
  end.
(** the pattern ^-\d+$|^-\d*\.\d+$ of argparse (without the line break that $ tolerates) *)
Definition negative_number (s : string) : bool :=
  match s with
  | String c t => Ascii.eqb c "-" && ((all_digits t && negb (String.eqb t "")) || decimal_point t)
  | "" => false
  end.

(** _parse_optional: an argument, an option (with the value after =), or something no command line may contain *)
Inductive token := TArg | TUse (o : opt) (inline : option string) | TBad.
Definition exact (p : list opt) (s : string) : option opt := find (fun o => String.eqb (o_name o) s) p.
Definition beginning (p : list opt) (s : string) : list opt := filter (fun o => prefix s (o_name o)) p.
Definition classify (p : list opt) (s : string) : token :=
  if String.eqb s "" then TArg
  else if negb (prefix "-" s) then TArg
  else match exact p s with
       | Some o => TUse o None
       | None =>
         if String.eqb s "-" then TArg
         else if String.eqb s "--" then TBad
         else if prefix "--" s then
           match cut s with
           | Some (a, b) =>
             match exact p a with
             | Some o => TUse o (Some b)
             | None => match beginning p a with
                       | [o] => TUse o (Some b)
                       | [] => if has_space s then TArg else TBad
                       | _ => TBad
                       end
             end
           | None => match beginning p s with
                     | [o] => TUse o None
                     | [] => if has_space s then TArg else TBad
                     | _ => TBad
                     end
           end
         else if prefix "-h" s then TBad
         else if negative_number s then TArg
         else if has_space s then TArg
         else TBad
       end.

Section Parse.
(** int(s), None if it raises; whether float(s) does not raise *)
Variable int_of : string -> option Z.
Variable float_ok : string -> bool.
Variable p : list opt.

Definition convert (k : okind) (s : string) : option value :=
  match k with
  | OInt => option_map VInt (int_of s)
  | OFloat => if float_ok s then Some (VFloat s) else None
  | OStr => Some (VStr s)
  | _ => None
  end.
(** the namespace and the option strings seen so far *)
Definition pstate := (env * list string)%type.
(** another option of the same mutually exclusive group was seen *)
Definition conflicts (o : opt) (seen : list string) : bool :=
  match o_group o with
  | None => false
  | Some g => existsb (fun o' => match o_group o' with Some g' => String.eqb g' g | None => false end
                                 && negb (String.eqb (o_name o') (o_name o))
                                 && existsb (String.eqb (o_name o')) seen) p
  end.
(** take_action with the values of an option *)
Definition take (o : opt) (vs : list string) (st : pstate) : option pstate :=
  let (ns, seen) := st in
  if conflicts o seen then None
  else option_map (fun v => (set ns (dest (o_name o)) v, o_name o :: seen))
    match o_kind o, vs with
    | OFlag, [] => Some (VBool true)
    | OAppend, _ :: _ => Some (VLists (match get ns (dest (o_name o)) with Some (VLists l) => l | _ => [] end ++ [vs])%list)
    | OInt, [s] | OFloat, [s] | OStr, [s] => convert (o_kind o) s
    | _, _ => None
    end.
(** what the next word belongs to: nothing, the one value of an option, the values of an option with nargs="+" *)
Inductive mode := Idle | Want (o : opt) | More (o : opt) (vs : list string).
Definition start (o : opt) (inline : option string) (st : pstate) : option (mode * pstate) :=
  let finish vs := option_map (fun st => (Idle, st)) (take o vs st) in
  match o_kind o, inline with
  | OHelp, _ => None
  | OFlag, None => finish []
  | OFlag, Some _ => None
  | _, Some v => finish [v]
  | OAppend, None => Some (More o [], st)
  | _, None => Some (Want o, st)
  end.
Fixpoint consume (argv : list string) (m : mode) (st : pstate) : option pstate :=
  match argv with
  | [] => match m with
          | Idle => Some st
          | Want _ => None
          | More o vs => take o vs st
          end
  | w :: argv =>
    match m, classify p w with
    | _, TBad => None
    | Idle, TArg => None
    | Idle, TUse o inline => match start o inline st with Some (m, st) => consume argv m st | None => None end
    | Want o, TArg => match take o [w] st with Some st => consume argv Idle st | None => None end
    | Want _, TUse _ _ => None
    | More o vs, TArg => consume argv (More o (vs ++ [w])) st
    | More o vs, TUse o' inline =>
      match take o vs st with
      | None => None
      | Some st => match start o' inline st with Some (m, st) => consume argv m st | None => None end
      end
    end
  end.
(** parse_args *)
Definition defaults : env :=
  map (fun o => (dest (o_name o), o_default o)) (filter (fun o => match o_kind o with OHelp => false | _ => true end) p).
Definition parse_args (argv : list string) : option env :=
  match consume argv Idle (defaults, []) with
  | None => None
  | Some (ns, seen) =>
    if forallb (fun o => negb (o_required o) || existsb (String.eqb (o_name o)) seen) p then Some ns else None
  end.
End Parse.

(** ** the options *)
Definition flag (name : string) : opt := Opt name OFlag (VBool false) false None.
Definition flag_of (group name : string) : opt := Opt name OFlag (VBool false) false (Some group).

(** guru_arg_parser, core/guru.py:403-480; flowMC_arg_parser (core/flowMC_based.py:1021) and numpyro_arg_parser
    (core/numpyro_based.py:160) are the same function *)
Definition guru_args : list opt :=
  [Opt "--seed" OInt (VInt 37) false None;
   Opt "--pmean-json" OStr (VStr "pmean.json") false None;
   Opt "--sampler-config" OStr VNone true None;
   Opt "--variance-cut-threshold" OFloat VNone false None;
   Opt "--prior-json" OStr (VStr "prior.json") false None;
   flag "--debug-nans"; flag "--profile-memory"; flag "--check-leaks"].
(** sage_arg_parser, core/sage.py:288-315 *)
Definition sage_args : list opt :=
  [Opt "--data-loader-cfg" OStr VNone true None;
   Opt "--n-buckets" OInt VNone false None;
   Opt "--threshold" OFloat (VFloat "3.0") false None].
(** monk_arg_parser, core/monk.py:197-251 *)
Definition monk_args : list opt :=
  (guru_args ++
   [Opt "--data-filename" OStr VNone true None;
    Opt "--n-samples" OInt (VInt 10000) false None;
    Opt "--minimum-mc-error" OFloat (VFloat "0.01") false None;
    Opt "--n-checkpoints" OInt (VInt 5) false None;
    Opt "--n-max-steps" OInt (VInt 10) false None])%list.
(** model_arg_parser, n_pls_m_gs/sage.py:549-652; the same options again in n_pls_m_gs/monk.py:474-571 *)
Definition npl_args : list opt :=
  [Opt "--n-pl" OInt VNone false None;
   Opt "--n-g" OInt VNone false None;
   flag_of "spin" "--add-beta-spin-magnitude";
   flag_of "spin" "--add-spin-magnitude-mixture";
   flag "--add-truncated-normal-spin-x";
   flag "--add-truncated-normal-spin-y";
   flag "--add-truncated-normal-spin-z";
   flag_of "chi_eff" "--add-chi-eff-mixture";
   flag_of "chi_eff" "--add-skew-normal-chi-eff";
   flag "--add-truncated-normal-chi-p";
   flag "--add-tilt";
   flag "--add-redshift";
   flag "--add-eccentricity-mixture";
   flag "--add-cos-iota";
   flag "--add-phi-12";
   flag "--add-polarization-angle";
   flag "--add-right-ascension";
   flag "--add-sin-declination";
   flag "--add-detection-time"].
(** model_arg_parser, o3_n_pls_m_gs/sage.py:343-401, o4_n_bpls_m_gs/sage.py:347-405 *)
Definition smoothed_args (count : string) : list opt :=
  [Opt count OInt VNone false None;
   Opt "--n-g" OInt VNone false None;
   flag_of "spin" "--add-beta-spin-magnitude";
   flag_of "spin" "--add-spin-magnitude-mixture";
   flag_of "chi_eff" "--add-chi-eff-mixture";
   flag_of "chi_eff" "--add-skew-normal-chi-eff";
   flag "--add-truncated-normal-chi-p";
   flag "--add-tilt";
   flag "--add-eccentricity-mixture";
   flag "--add-redshift"].
(** get_parser, utils/genie_parser.py:10-70 *)
Definition genie_args : list opt :=
  [Opt "--error-size" OInt (VInt 2000) false None;
   Opt "--num-realizations" OInt (VInt 5) false None;
   Opt "--seed" OInt (VInt 37) false None;
   Opt "--pmean-json" OStr (VStr "pmean.json") false None;
   Opt "--tile-covariance" OAppend VNone false None].
(** make_parser, n_pls_m_gs/genie.py:25-157 *)
Definition genie_npl_args : list opt :=
  (genie_args ++
   [Opt "--model-json" OStr VNone true None;
    flag_of "spin" "--add-beta-spin-magnitude";
    flag_of "spin" "--add-spin-magnitude-mixture";
    flag "--add-truncated-normal-spin-x";
    flag "--add-truncated-normal-spin-y";
    flag "--add-truncated-normal-spin-z";
    flag_of "chi_eff" "--add-chi-eff-mixture";
    flag_of "chi_eff" "--add-skew-normal-chi-eff";
    flag "--add-truncated-normal-chi-p";
    flag "--add-tilt";
    flag "--add-eccentricity-mixture";
    flag "--add-mean-anomaly";
    flag "--add-redshift";
    flag "--add-cos-iota";
    flag "--add-polarization-angle";
    flag "--add-right-ascension";
    flag "--add-sin-declination";
    flag "--add-detection-time";
    flag "--add-phi-1";
    flag "--add-phi-2";
    flag "--add-phi-12";
    flag "--add-phi-orb";
    Opt "--err-json" OStr VNone true None])%list.
(** make_parser, ecc_matters/genie.py:24-57 *)
Definition genie_ecc_args : list opt :=
  (genie_args ++ [Opt "--model-json" OStr VNone true None; Opt "--err-json" OStr VNone true None])%list.

(** ** calls with keyword arguments *)
(** f(target=source, ...): a name that does not exist is an AttributeError or NameError *)
Fixpoint read (e : env) (pairs : list (string * string)) : option env :=
  match pairs with
  | [] => Some []
  | (target, source) :: t =>
    match get e source, read e t with
    | Some v, Some r => Some ((target, v) :: r)
    | _, _ => None
    end
  end.
Definition same (names : list string) : list (string * string) := map (fun n => (n, n)) names.
(** the arguments of def f(required..., optional=default...): a missing or an unknown argument is a TypeError *)
Definition bind (required : list string) (optional kwargs : env) : option env :=
  if forallb (fun kv => existsb (String.eqb (fst kv)) (required ++ map fst optional)%list) kwargs
  then match read kwargs (same required) with
       | None => None
       | Some r => Some (r ++ map (fun kv => (fst kv, match get kwargs (fst kv) with Some v => v | None => snd kv end)) optional)%list
       end
  else None.
Definition and_then {A B : Type} (a : option A) (f : A -> option B) : option B :=
  match a with Some x => f x | None => None end.

(** all(letter.isalpha() or letter == "_" for letter in analysis_name), for ASCII *)
Fixpoint letters (s : string) : bool :=
  match s with
  | "" => true
  | String c t =>
    let n := nat_of_ascii c in
    (((65 <=? n) && (n <=? 90)) || ((97 <=? n) && (n <=? 122)) || (n =? 95))%nat && letters t
  end.
Definition analysis_name_ok (e : env) : bool :=
  match get e "analysis_name" with Some (VStr s) => letters s | _ => false end.
(** Guru.set_rng_key(seed=...), core/guru.py:235-261: an integer that is not negative *)
Definition seed_attr (e : env) : option env :=
  match get e "seed" with
  | Some (VInt z) => if (z <? 0)%Z then None else Some [("seed", VInt z)]
  | _ => None
  end.
(** the three keyword arguments with the default False *)
Definition developer : env := [("debug_nans", VBool false); ("profile_memory", VBool false); ("check_leaks", VBool false)].

(** Guru.__init__, core/guru.py:207-228 *)
Definition guru_init (kwargs : env) : option env :=
  and_then (bind ["analysis_name"; "check_leaks"; "debug_nans"; "model"; "poisson_mean_filename"; "prior_filename";
                  "profile_memory"; "sampler_settings_filename"] [("variance_cut_threshold", VNone)] kwargs) (fun e =>
  read e (same ["analysis_name"; "prior_filename"; "model"; "sampler_settings_filename"; "debug_nans";
                "profile_memory"; "check_leaks"; "poisson_mean_filename"; "variance_cut_threshold"])).

(** Sage.__init__, core/sage.py:32-88 *)
Definition sage_init (kwargs : env) : option env :=
  and_then (bind ["likelihood_fn"; "model"; "where_fns"; "data_loader"; "seed"; "prior_filename";
                  "poisson_mean_filename"; "sampler_settings_filename"; "variance_cut_threshold"; "n_buckets";
                  "threshold"] (developer ++ [("analysis_name", VStr "")])%list kwargs) (fun e =>
  if negb (analysis_name_ok e) then None else
  and_then (read e (same ["likelihood_fn"; "n_buckets"; "data_loader"; "threshold"; "where_fns"])) (fun own =>
  and_then (seed_attr e) (fun seed =>
  and_then (read e (same ["analysis_name"; "check_leaks"; "debug_nans"; "model"; "poisson_mean_filename";
                          "prior_filename"; "profile_memory"; "sampler_settings_filename";
                          "variance_cut_threshold"])) (fun kw =>
  and_then (guru_init kw) (fun base => Some (own ++ seed ++ base)%list))))).

(** Monk.__init__, core/monk.py:79-142; model.__name__ is the text that represents the model *)
Definition monk_signature : list string :=
  ["model"; "data_filename"; "seed"; "prior_filename"; "poisson_mean_filename"; "sampler_settings_filename";
   "n_samples"; "minimum_mc_error"; "n_checkpoints"; "n_max_steps"].
Definition monk_init (kwargs : env) : option env :=
  and_then (bind monk_signature (developer ++ [("analysis_name", VStr "")])%list kwargs) (fun e =>
  if negb (analysis_name_ok e) then None else
  and_then (read e (same ["data_filename"; "n_samples"; "minimum_mc_error"; "n_checkpoints"; "n_max_steps"])) (fun own =>
  and_then (seed_attr e) (fun seed =>
  and_then (get e "model") (fun model =>
  and_then (read e (same ["check_leaks"; "debug_nans"; "model"; "poisson_mean_filename"; "prior_filename";
                          "profile_memory"; "sampler_settings_filename"])) (fun kw =>
  let name := match get e "analysis_name" with Some (VStr "") => model | Some v => v | None => VNone end in
  and_then (guru_init (("analysis_name", name) :: kw)) (fun base => Some (own ++ seed ++ base)%list)))))).

(** where_fns_list(...), n_pls_m_gs/sage.py:25-70, o3_n_pls_m_gs/sage.py:25-56, o4_n_bpls_m_gs/sage.py:25-56: a list
    with one function, or None *)
Definition where_fns_list (e : env) (beta name : string) : option value :=
  match get e beta with
  | Some (VBool true) => Some (VStr name)
  | Some (VBool false) => Some VNone
  | _ => None
  end.
Definition npl_switches : list string :=
  ["has_beta_spin_magnitude"; "use_spin_magnitude_mixture"; "has_truncated_normal_spin_x";
   "has_truncated_normal_spin_y"; "has_truncated_normal_spin_z"; "use_chi_eff_mixture"; "use_skew_normal_chi_eff";
   "use_truncated_normal_chi_p"; "has_tilt"; "use_eccentricity_mixture"; "has_redshift"; "has_cos_iota";
   "has_phi_12"; "has_polarization_angle"; "has_right_ascension"; "has_sin_declination"; "has_detection_time"].
Definition sage_settings : list string :=
  ["likelihood_fn"; "data_loader"; "seed"; "prior_filename"; "poisson_mean_filename"; "sampler_settings_filename";
   "variance_cut_threshold"; "n_buckets"; "threshold"].
(** NPowerlawMGaussianCore.__init__, n_pls_m_gs/sage.py:73-156 *)
Definition npl_sage_init (kwargs : env) : option env :=
  and_then (bind (["N_pl"; "N_g"] ++ npl_switches ++ sage_settings)%list developer kwargs) (fun e =>
  and_then (read e (same (["N_pl"; "N_g"] ++ npl_switches)%list)) (fun own =>
  and_then (where_fns_list e "has_beta_spin_magnitude" "mean_variance_check") (fun where_fns =>
  and_then (read e (same (sage_settings ++ map fst developer)%list)) (fun kw =>
  and_then (sage_init ([("model", VStr "NPowerlawMGaussian"); ("analysis_name", VStr "n_pls_m_gs");
                        ("where_fns", where_fns)] ++ kw)%list) (fun base => Some (own ++ base)%list))))).
Definition smoothed_switches : list string :=
  ["use_beta_spin_magnitude"; "use_spin_magnitude_mixture"; "use_chi_eff_mixture"; "use_skew_normal_chi_eff";
   "use_truncated_normal_chi_p"; "use_tilt"; "use_eccentricity_mixture"; "use_redshift"].
(** NSmoothedPowerlawMSmoothedGaussianCore.__init__, o3_n_pls_m_gs/sage.py:60-124; NBrokenPowerlawMGaussianCore.__init__,
    o4_n_bpls_m_gs/sage.py:60-124 *)
Definition smoothed_sage_init (count model name : string) (kwargs : env) : option env :=
  and_then (bind ([count; "N_g"] ++ smoothed_switches ++ sage_settings)%list developer kwargs) (fun e =>
  and_then (read e (same ([count; "N_g"] ++ smoothed_switches)%list)) (fun own =>
  and_then (where_fns_list e "use_beta_spin_magnitude" "positive_concentration") (fun where_fns =>
  and_then (read e (same (sage_settings ++ map fst developer)%list)) (fun kw =>
  and_then (sage_init ([("model", VStr model); ("analysis_name", VStr name);
                        ("where_fns", where_fns)] ++ kw)%list) (fun base => Some (own ++ base)%list))))).
(** NPowerlawMGaussianMonk.__init__, n_pls_m_gs/monk.py:16-90: six positional arguments, the others by keyword *)
Definition npl_monk_init (kwargs : env) : option env :=
  and_then (bind (["N_pl"; "N_g"] ++ npl_switches ++
                  ["data_filename"; "seed"; "prior_filename"; "poisson_mean_filename"; "sampler_settings_filename";
                   "n_samples"; "minimum_mc_error"; "n_checkpoints"; "n_max_steps"])%list developer kwargs) (fun e =>
  and_then (read e (same (["N_pl"; "N_g"] ++ npl_switches)%list)) (fun own =>
  and_then (read e (same ["data_filename"; "seed"; "prior_filename"; "poisson_mean_filename";
                          "sampler_settings_filename"])) (fun positional =>
  and_then (read e (same ["debug_nans"; "profile_memory"; "check_leaks"; "n_samples"; "minimum_mc_error";
                          "n_checkpoints"; "n_max_steps"])) (fun kw =>
  and_then (monk_init (combine monk_signature (VStr "NPowerlawMGaussian" :: map snd positional)
                       ++ [("analysis_name", VStr "n_pls_m_gs")] ++ kw)%list) (fun base => Some (own ++ base)%list))))).

(** ** the main functions: from the namespace to keyword arguments *)
(** has_x=args.add_x *)
Definition npl_switch_args : list (string * string) :=
  [("has_beta_spin_magnitude", "add_beta_spin_magnitude");
   ("use_spin_magnitude_mixture", "add_spin_magnitude_mixture");
   ("has_truncated_normal_spin_x", "add_truncated_normal_spin_x");
   ("has_truncated_normal_spin_y", "add_truncated_normal_spin_y");
   ("has_truncated_normal_spin_z", "add_truncated_normal_spin_z");
   ("use_chi_eff_mixture", "add_chi_eff_mixture");
   ("use_skew_normal_chi_eff", "add_skew_normal_chi_eff");
   ("use_truncated_normal_chi_p", "add_truncated_normal_chi_p");
   ("has_tilt", "add_tilt");
   ("use_eccentricity_mixture", "add_eccentricity_mixture");
   ("has_redshift", "add_redshift");
   ("has_cos_iota", "add_cos_iota");
   ("has_phi_12", "add_phi_12");
   ("has_polarization_angle", "add_polarization_angle");
   ("has_right_ascension", "add_right_ascension");
   ("has_sin_declination", "add_sin_declination");
   ("has_detection_time", "add_detection_time")].
Definition smoothed_switch_args : list (string * string) :=
  [("use_beta_spin_magnitude", "add_beta_spin_magnitude");
   ("use_spin_magnitude_mixture", "add_spin_magnitude_mixture");
   ("use_chi_eff_mixture", "add_chi_eff_mixture");
   ("use_skew_normal_chi_eff", "add_skew_normal_chi_eff");
   ("use_truncated_normal_chi_p", "add_truncated_normal_chi_p");
   ("use_tilt", "add_tilt");
   ("use_eccentricity_mixture", "add_eccentricity_mixture");
   ("use_redshift", "add_redshift")].
Definition sage_setting_args : list (string * string) :=
  [("data_loader", "data_loader_cfg");
   ("seed", "seed");
   ("prior_filename", "prior_json");
   ("poisson_mean_filename", "pmean_json");
   ("sampler_settings_filename", "sampler_config");
   ("variance_cut_threshold", "variance_cut_threshold");
   ("n_buckets", "n_buckets");
   ("threshold", "threshold");
   ("debug_nans", "debug_nans");
   ("profile_memory", "profile_memory");
   ("check_leaks", "check_leaks")].
Definition monk_setting_args : list (string * string) :=
  [("data_filename", "data_filename");
   ("seed", "seed");
   ("prior_filename", "prior_json");
   ("poisson_mean_filename", "pmean_json");
   ("sampler_settings_filename", "sampler_config");
   ("n_samples", "n_samples");
   ("minimum_mc_error", "minimum_mc_error");
   ("n_checkpoints", "n_checkpoints");
   ("n_max_steps", "n_max_steps");
   ("debug_nans", "debug_nans");
   ("profile_memory", "profile_memory");
   ("check_leaks", "check_leaks")].

(** the console scripts of pyproject.toml that run an analysis or a generator *)
Inductive backend := FlowMC | Numpyro.
Inductive command :=
  | SageNpl (b : backend)   (* f_sage_n_pls_m_gs, n_sage_n_pls_m_gs *)
  | SageO3 (b : backend)    (* f_sage_o3_n_pls_m_gs, n_sage_o3_n_pls_m_gs *)
  | SageO4 (b : backend)    (* f_sage_o4_n_bpls_m_gs, n_sage_o4_n_bpls_m_gs *)
  | SageEcc (b : backend)   (* f_sage_ecc_matters, n_sage_ecc_matters *)
  | MonkNpl                 (* f_monk_n_pls_m_gs *)
  | MonkEcc                 (* f_monk_ecc_matters *)
  | GenieNpl                (* genie_n_pls_m_gs *)
  | GenieEcc.               (* genie_ecc_matters *)
Definition likelihood_of (b : backend) : value :=
  match b with FlowMC => VStr "flowMC_poisson_likelihood" | Numpyro => VStr "numpyro_poisson_likelihood" end.

Definition options (c : command) : list opt :=
  match c with
  | SageNpl _ => npl_args ++ sage_args ++ guru_args                 (* n_pls_m_gs/sage.py:658-661, 705-708 *)
  | SageO3 _ => smoothed_args "--n-pl" ++ sage_args ++ guru_args    (* o3_n_pls_m_gs/sage.py:407-410, 450-453 *)
  | SageO4 _ => smoothed_args "--n-bpl" ++ sage_args ++ guru_args   (* o4_n_bpls_m_gs/sage.py:411-414, 452-455 *)
  | SageEcc _ => sage_args ++ guru_args                             (* ecc_matters/sage.py:41-43, 71-73 *)
  | MonkNpl => monk_args ++ npl_args                                (* n_pls_m_gs/monk.py:471-571 *)
  | MonkEcc => monk_args                                            (* ecc_matters/monk.py:25-26 *)
  | GenieNpl => genie_npl_args                                      (* n_pls_m_gs/genie.py:162 *)
  | GenieEcc => genie_ecc_args                                      (* ecc_matters/genie.py:61 *)
  end%list.

(** the body of main after parse_args: for Sage and Monk the attributes of the analysis whose run method is called;
    for the generators the local variables and files that the rest of main uses *)
Definition main (c : command) (args : env) : option env :=
  match c with
  | SageNpl b => (* n_pls_m_gs/sage.py:669-701, 716-748 *)
    and_then (read args ([("N_pl", "n_pl"); ("N_g", "n_g")] ++ npl_switch_args ++ sage_setting_args)%list) (fun kw =>
    npl_sage_init (("likelihood_fn", likelihood_of b) :: kw))
  | SageO3 b => (* o3_n_pls_m_gs/sage.py:423-446, 466-489 *)
    and_then (read args ([("N_pl", "n_pl"); ("N_g", "n_g")] ++ smoothed_switch_args ++ sage_setting_args)%list) (fun kw =>
    smoothed_sage_init "N_pl" "NSmoothedPowerlawMSmoothedGaussian" "othree_n_pls_m_gs" (("likelihood_fn", likelihood_of b) :: kw))
  | SageO4 b => (* o4_n_bpls_m_gs/sage.py:425-448, 466-489 *)
    and_then (read args ([("N_bpl", "n_bpl"); ("N_g", "n_g")] ++ smoothed_switch_args ++ sage_setting_args)%list) (fun kw =>
    smoothed_sage_init "N_bpl" "NBrokenPowerlawMGaussian" "ofour_n_bpls_m_gs" (("likelihood_fn", likelihood_of b) :: kw))
  | SageEcc b => (* ecc_matters/sage.py:51-67, 81-97 *)
    and_then (read args sage_setting_args) (fun kw =>
    sage_init ([("likelihood_fn", likelihood_of b); ("model", VStr "EccentricityMattersModel");
                ("analysis_name", VStr match b with FlowMC => "f_sage_ecc_matters" | Numpyro => "n_sage_ecc_matters" end);
                ("where_fns", VNone)] ++ kw)%list)
  | MonkNpl => (* n_pls_m_gs/monk.py:577-613 *)
    and_then (read args ([("N_pl", "n_pl"); ("N_g", "n_g")] ++ npl_switch_args ++ monk_setting_args)%list) npl_monk_init
  | MonkEcc => (* ecc_matters/monk.py:32-47 *)
    and_then (read args monk_setting_args) (fun kw =>
    monk_init ([("model", VStr "EccentricityMattersModel"); ("analysis_name", VStr "ecc_matters")] ++ kw)%list)
  | GenieNpl => (* n_pls_m_gs/genie.py:167-196, 1087-1106 *)
    read args [("model_json", "model_json"); ("err_json", "err_json");
               ("has_beta_spin_magnitude", "add_beta_spin_magnitude");
               ("has_spin_magnitude_mixture", "add_spin_magnitude_mixture");
               ("has_truncated_normal_spin_x", "add_truncated_normal_spin_x");
               ("has_truncated_normal_spin_y", "add_truncated_normal_spin_y");
               ("has_truncated_normal_spin_z", "add_truncated_normal_spin_z");
               ("has_chi_eff_mixture", "add_chi_eff_mixture");
               ("use_skew_normal_chi_eff", "add_skew_normal_chi_eff");
               ("has_truncated_normal_chi_p", "add_truncated_normal_chi_p");
               ("has_tilt", "add_tilt");
               ("use_eccentricity_mixture", "add_eccentricity_mixture");
               ("has_mean_anomaly", "add_mean_anomaly");
               ("has_redshift", "add_redshift");
               ("has_cos_iota", "add_cos_iota");
               ("has_polarization_angle", "add_polarization_angle");
               ("has_right_ascension", "add_right_ascension");
               ("has_sin_declination", "add_sin_declination");
               ("has_detection_time", "add_detection_time");
               ("has_phi_1", "add_phi_1");
               ("has_phi_2", "add_phi_2");
               ("has_phi_12", "add_phi_12");
               ("has_phi_orb", "add_phi_orb");
               ("seed", "seed"); ("pmean_json", "pmean_json");
               ("num_realizations", "num_realizations"); ("error_size", "error_size");
               ("tile_covariance", "tile_covariance")]
  | GenieEcc => (* ecc_matters/genie.py:66-70, 118-137 *)
    read args [("model_json", "model_json"); ("err_json", "err_json"); ("seed", "seed"); ("pmean_json", "pmean_json");
               ("num_realizations", "num_realizations"); ("error_size", "error_size");
               ("tile_covariance", "tile_covariance")]
  end.

Section Run.
Variable int_of : string -> option Z.
Variable float_ok : string -> bool.
(** the command with the words [argv] after its name *)
Definition run (c : command) (argv : list string) : option env :=
  match build (options c) with
  | None => None
  | Some p => and_then (parse_args int_of float_ok p argv) (main c)
  end.
End Run.

(** ** what the attributes are used for *)
Definition switch (obj : env) (name : string) : bool :=
  match get obj name with Some (VBool b) => b | _ => false end.
(** the arguments of Model_NPLMG, read from an analysis of SageNpl or MonkNpl *)
Definition npl_flags (obj : env) : flags :=
  {| has_beta_spin_magnitude := switch obj "has_beta_spin_magnitude";
     use_spin_magnitude_mixture := switch obj "use_spin_magnitude_mixture";
     has_truncated_normal_spin_x := switch obj "has_truncated_normal_spin_x";
     has_truncated_normal_spin_y := switch obj "has_truncated_normal_spin_y";
     has_truncated_normal_spin_z := switch obj "has_truncated_normal_spin_z";
     use_chi_eff_mixture := switch obj "use_chi_eff_mixture";
     use_skew_normal_chi_eff := switch obj "use_skew_normal_chi_eff";
     use_truncated_normal_chi_p := switch obj "use_truncated_normal_chi_p";
     has_tilt := switch obj "has_tilt";
     use_eccentricity_mixture := switch obj "use_eccentricity_mixture";
     has_redshift := switch obj "has_redshift";
     has_cos_iota := switch obj "has_cos_iota";
     has_phi_12 := switch obj "has_phi_12";
     has_polarization_angle := switch obj "has_polarization_angle";
     has_right_ascension := switch obj "has_right_ascension";
     has_sin_declination := switch obj "has_sin_declination";
     has_detection_time := switch obj "has_detection_time" |}.
(** those of Model_Smoothed, read from an analysis of SageO3 or SageO4 *)
Definition smoothed_flags (obj : env) : sflags :=
  {| sf_beta_spin_magnitude := switch obj "use_beta_spin_magnitude";
     sf_spin_magnitude_mixture := switch obj "use_spin_magnitude_mixture";
     sf_chi_eff_mixture := switch obj "use_chi_eff_mixture";
     sf_skew_normal_chi_eff := switch obj "use_skew_normal_chi_eff";
     sf_truncated_normal_chi_p := switch obj "use_truncated_normal_chi_p";
     sf_tilt := switch obj "use_tilt";
     sf_eccentricity_mixture := switch obj "use_eccentricity_mixture";
     sf_redshift := switch obj "use_redshift" |}.
(** self.N_pl + self.N_g and range(self.N_pl), range(self.N_g) in model_parameters (n_pls_m_gs/sage.py:223-237 and
    533, monk.py:150-166, o3_n_pls_m_gs/sage.py:162-171, o4_n_bpls_m_gs/sage.py:162-174): numbers of components that
    are not given (None) are a TypeError *)
Definition component_counts (c : command) (obj : env) : option (Z * Z) :=
  let count := match c with SageO4 _ => "N_bpl" | _ => "N_pl" end in
  match get obj count, get obj "N_g" with
  | Some (VInt a), Some (VInt b) => Some (a, b)
  | _, _ => None
  end.
