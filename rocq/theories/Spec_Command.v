(** Vocabulary of the statements about command lines. A command line is a list of uses of options; each use is
    spelled with the option's name or an abbreviation of it that fits no other option, and its value follows as the
    next word or after an equals sign. *)
From Coq Require Import String Ascii List ZArith Bool Permutation.
From Verif Require Import Model_NPLMG Model_Smoothed Model_Command.
Import ListNotations.
Open Scope string_scope.

(** how many and which kind of words an option takes *)
Inductive reading := Switch | Integer | Number | Text | Texts.
(** an option: its name, what it takes, the setting it is for, what that setting is when the option is left out, and
    whether it may be left out *)
Record row := Row { r_opt : string; r_reading : reading; r_setting : string; r_omitted : value; r_needed : bool }.

(** ** the documented options *)
Definition switch_row (o setting : string) : row := Row o Switch setting (VBool false) false.
Definition guru_rows : list row :=
  [Row "--seed" Integer "seed" (VInt 37) false;
   Row "--pmean-json" Text "poisson_mean_filename" (VStr "pmean.json") false;
   Row "--sampler-config" Text "sampler_settings_filename" VNone true;
   Row "--variance-cut-threshold" Number "variance_cut_threshold" VNone false;
   Row "--prior-json" Text "prior_filename" (VStr "prior.json") false;
   switch_row "--debug-nans" "debug_nans";
   switch_row "--profile-memory" "profile_memory";
   switch_row "--check-leaks" "check_leaks"].
Definition sage_rows : list row :=
  [Row "--data-loader-cfg" Text "data_loader" VNone true;
   Row "--n-buckets" Integer "n_buckets" VNone false;
   Row "--threshold" Number "threshold" (VFloat "3.0") false].
Definition monk_rows : list row :=
  [Row "--data-filename" Text "data_filename" VNone true;
   Row "--n-samples" Integer "n_samples" (VInt 10000) false;
   Row "--minimum-mc-error" Number "minimum_mc_error" (VFloat "0.01") false;
   Row "--n-checkpoints" Integer "n_checkpoints" (VInt 5) false;
   Row "--n-max-steps" Integer "n_max_steps" (VInt 10) false].
Definition npl_rows : list row :=
  [Row "--n-pl" Integer "N_pl" VNone false;
   Row "--n-g" Integer "N_g" VNone false;
   switch_row "--add-beta-spin-magnitude" "has_beta_spin_magnitude";
   switch_row "--add-spin-magnitude-mixture" "use_spin_magnitude_mixture";
   switch_row "--add-truncated-normal-spin-x" "has_truncated_normal_spin_x";
   switch_row "--add-truncated-normal-spin-y" "has_truncated_normal_spin_y";
   switch_row "--add-truncated-normal-spin-z" "has_truncated_normal_spin_z";
   switch_row "--add-chi-eff-mixture" "use_chi_eff_mixture";
   switch_row "--add-skew-normal-chi-eff" "use_skew_normal_chi_eff";
   switch_row "--add-truncated-normal-chi-p" "use_truncated_normal_chi_p";
   switch_row "--add-tilt" "has_tilt";
   switch_row "--add-redshift" "has_redshift";
   switch_row "--add-eccentricity-mixture" "use_eccentricity_mixture";
   switch_row "--add-cos-iota" "has_cos_iota";
   switch_row "--add-phi-12" "has_phi_12";
   switch_row "--add-polarization-angle" "has_polarization_angle";
   switch_row "--add-right-ascension" "has_right_ascension";
   switch_row "--add-sin-declination" "has_sin_declination";
   switch_row "--add-detection-time" "has_detection_time"].
Definition smoothed_rows (option count : string) : list row :=
  [Row option Integer count VNone false;
   Row "--n-g" Integer "N_g" VNone false;
   switch_row "--add-beta-spin-magnitude" "use_beta_spin_magnitude";
   switch_row "--add-spin-magnitude-mixture" "use_spin_magnitude_mixture";
   switch_row "--add-chi-eff-mixture" "use_chi_eff_mixture";
   switch_row "--add-skew-normal-chi-eff" "use_skew_normal_chi_eff";
   switch_row "--add-truncated-normal-chi-p" "use_truncated_normal_chi_p";
   switch_row "--add-tilt" "use_tilt";
   switch_row "--add-eccentricity-mixture" "use_eccentricity_mixture";
   switch_row "--add-redshift" "use_redshift"].
Definition genie_rows : list row :=
  [Row "--error-size" Integer "error_size" (VInt 2000) false;
   Row "--num-realizations" Integer "num_realizations" (VInt 5) false;
   Row "--seed" Integer "seed" (VInt 37) false;
   Row "--pmean-json" Text "pmean_json" (VStr "pmean.json") false;
   Row "--tile-covariance" Texts "tile_covariance" VNone false;
   Row "--model-json" Text "model_json" VNone true].
Definition genie_npl_rows : list row :=
  [switch_row "--add-beta-spin-magnitude" "has_beta_spin_magnitude";
   switch_row "--add-spin-magnitude-mixture" "has_spin_magnitude_mixture";
   switch_row "--add-truncated-normal-spin-x" "has_truncated_normal_spin_x";
   switch_row "--add-truncated-normal-spin-y" "has_truncated_normal_spin_y";
   switch_row "--add-truncated-normal-spin-z" "has_truncated_normal_spin_z";
   switch_row "--add-chi-eff-mixture" "has_chi_eff_mixture";
   switch_row "--add-skew-normal-chi-eff" "use_skew_normal_chi_eff";
   switch_row "--add-truncated-normal-chi-p" "has_truncated_normal_chi_p";
   switch_row "--add-tilt" "has_tilt";
   switch_row "--add-eccentricity-mixture" "use_eccentricity_mixture";
   switch_row "--add-mean-anomaly" "has_mean_anomaly";
   switch_row "--add-redshift" "has_redshift";
   switch_row "--add-cos-iota" "has_cos_iota";
   switch_row "--add-polarization-angle" "has_polarization_angle";
   switch_row "--add-right-ascension" "has_right_ascension";
   switch_row "--add-sin-declination" "has_sin_declination";
   switch_row "--add-detection-time" "has_detection_time";
   switch_row "--add-phi-1" "has_phi_1";
   switch_row "--add-phi-2" "has_phi_2";
   switch_row "--add-phi-12" "has_phi_12";
   switch_row "--add-phi-orb" "has_phi_orb"].
Definition rows (c : command) : list row :=
  match c with
  | SageNpl _ => npl_rows ++ sage_rows ++ guru_rows
  | SageO3 _ => smoothed_rows "--n-pl" "N_pl" ++ sage_rows ++ guru_rows
  | SageO4 _ => smoothed_rows "--n-bpl" "N_bpl" ++ sage_rows ++ guru_rows
  | SageEcc _ => sage_rows ++ guru_rows
  | MonkNpl => guru_rows ++ monk_rows ++ npl_rows
  | MonkEcc => guru_rows ++ monk_rows
  | GenieNpl => genie_rows ++ genie_npl_rows ++ [Row "--err-json" Text "err_json" VNone true]
  | GenieEcc => genie_rows ++ [Row "--err-json" Text "err_json" VNone true]
  end%list.
(** options that may not be used together *)
Definition exclusive : list (string * string) :=
  [("--add-beta-spin-magnitude", "--add-spin-magnitude-mixture");
   ("--add-chi-eff-mixture", "--add-skew-normal-chi-eff")].

(** ** writing uses of options down *)
(** an option with the words given to it *)
Definition use := (string * list string)%type.
(** [w] means option [o] *)
Definition spells (names : list string) (w o : string) : Prop :=
  In o names /\
  (w = o \/
   w <> "--" /\ prefix "--" w = true /\ prefix w o = true /\
   forall o', In o' ("--help" :: names) -> prefix w o' = true -> o' = o).
(** the word could be meant as an option *)
Definition option_like (names : list string) (w : string) : Prop :=
  prefix "--" w = true /\
  exists a o, In o ("--help" :: names) /\ prefix a o = true /\ (w = a \/ exists b, w = a ++ "=" ++ b).
(** the word is a value: it does not begin with a dash, or it is a single dash, a negative number, or a text with a
    space in it that cannot be meant as an option *)
Definition plain (names : list string) (w : string) : Prop :=
  prefix "-" w = false \/ w = "-" \/
  ((negative_number w = true \/ has_space w = true) /\ ~ option_like names w /\ w <> "--" /\ prefix "-h" w = false).
(** the words that write one use down *)
Inductive piece (names : list string) : reading -> use -> list string -> Prop :=
  | piece_switch o w : spells names w o -> piece names Switch (o, []) [w]
  | piece_inline k o w v : k <> Switch -> spells names w o -> piece names k (o, [v]) [w ++ "=" ++ v]
  | piece_next k o w v : k = Integer \/ k = Number \/ k = Text -> spells names w o -> plain names v ->
      piece names k (o, [v]) [w; v]
  | piece_texts o w vs : vs <> [] -> spells names w o -> Forall (plain names) vs ->
      piece names Texts (o, vs) (w :: vs).
Inductive written (rs : list row) : list use -> list string -> Prop :=
  | written_nil : written rs [] []
  | written_cons r u us words argv :
      In r rs -> fst u = r_opt r -> piece (map r_opt rs) (r_reading r) u words -> written rs us argv ->
      written rs (u :: us) (words ++ argv).

(** ** what they say *)
Section Meaning.
Variable int_of : string -> option Z.
Variable float_ok : string -> bool.
(** the value of one use *)
Definition value_of (k : reading) (vs : list string) : option value :=
  match k, vs with
  | Switch, [] => Some (VBool true)
  | Integer, [s] => match int_of s with Some z => Some (VInt z) | None => None end
  | Number, [s] => if float_ok s then Some (VFloat s) else None
  | Text, [s] => Some (VStr s)
  | Texts, _ :: _ => Some (VLists [vs])
  | _, _ => None
  end.
Definition uses_of (o : string) (us : list use) : list (list string) :=
  map snd (filter (fun u => String.eqb (fst u) o) us).
(** the setting that a command line asks for: the last use counts; uses of an option that takes several texts are
    collected *)
Definition asked (r : row) (us : list use) : value :=
  match r_reading r, uses_of (r_opt r) us with
  | _, [] => r_omitted r
  | Texts, l => VLists l
  | k, l => match value_of k (last l []) with Some v => v | None => VNone end
  end.
(** every value can be read, no option is missing, exclusive options are not combined *)
Definition acceptable (rs : list row) (us : list use) : Prop :=
  (forall r u, In r rs -> In u us -> fst u = r_opt r -> value_of (r_reading r) (snd u) <> None) /\
  (forall r, In r rs -> r_needed r = true -> In (r_opt r) (map fst us)) /\
  (forall a b, In (a, b) exclusive -> ~ (In a (map fst us) /\ In b (map fst us))).
(** the analyses insist on a seed that is not negative *)
Definition seed_allowed (c : command) (us : list use) : Prop :=
  match c with
  | GenieNpl | GenieEcc => True
  | _ => exists z, asked (Row "--seed" Integer "seed" (VInt 37) false) us = VInt z /\ (0 <= z)%Z
  end.
End Meaning.
(** the one option that is accepted without effect *)
Definition idle_option (c : command) (o : string) : Prop :=
  match c with MonkNpl | MonkEcc => o = "--variance-cut-threshold" | _ => False end.
Definition used (o : string) (us : list use) : Prop := In o (map fst us).
(** the analysis behind a command: the model of the population, the name in front of its files, the likelihood *)
Definition analysis (c : command) : list (string * string) :=
  let like b := ("likelihood_fn", match b with FlowMC => "flowMC_poisson_likelihood" | Numpyro => "numpyro_poisson_likelihood" end) in
  match c with
  | SageNpl b => [("model", "NPowerlawMGaussian"); ("analysis_name", "n_pls_m_gs"); like b]
  | SageO3 b => [("model", "NSmoothedPowerlawMSmoothedGaussian"); ("analysis_name", "othree_n_pls_m_gs"); like b]
  | SageO4 b => [("model", "NBrokenPowerlawMGaussian"); ("analysis_name", "ofour_n_bpls_m_gs"); like b]
  | SageEcc FlowMC => [("model", "EccentricityMattersModel"); ("analysis_name", "f_sage_ecc_matters"); like FlowMC]
  | SageEcc Numpyro => [("model", "EccentricityMattersModel"); ("analysis_name", "n_sage_ecc_matters"); like Numpyro]
  | MonkNpl => [("model", "NPowerlawMGaussian"); ("analysis_name", "n_pls_m_gs")]
  | MonkEcc => [("model", "EccentricityMattersModel"); ("analysis_name", "ecc_matters")]
  | GenieNpl | GenieEcc => []
  end.
(** the check on the hyper-parameters of spin magnitudes that follow a beta distribution *)
Definition spin_check (c : command) : option string :=
  match c with
  | SageNpl _ => Some "mean_variance_check"
  | SageO3 _ | SageO4 _ => Some "positive_concentration"
  | _ => None
  end.
(** the quantities of an event that an option adds *)
Definition adds : list (string * list string) :=
  [("--add-beta-spin-magnitude", ["a_1"; "a_2"]);
   ("--add-spin-magnitude-mixture", ["a_1"; "a_2"]);
   ("--add-truncated-normal-spin-x", ["spin_1x"; "spin_2x"]);
   ("--add-truncated-normal-spin-y", ["spin_1y"; "spin_2y"]);
   ("--add-truncated-normal-spin-z", ["spin_1z"; "spin_2z"]);
   ("--add-chi-eff-mixture", ["chi_eff"]);
   ("--add-skew-normal-chi-eff", ["chi_eff"]);
   ("--add-truncated-normal-chi-p", ["chi_p"]);
   ("--add-tilt", ["cos_tilt_1"; "cos_tilt_2"]);
   ("--add-phi-12", ["phi_12"]);
   ("--add-eccentricity-mixture", ["eccentricity"]);
   ("--add-redshift", ["redshift"]);
   ("--add-right-ascension", ["ra"]);
   ("--add-sin-declination", ["dec"]);
   ("--add-detection-time", ["detection_time"]);
   ("--add-cos-iota", ["cos_iota"]);
   ("--add-polarization-angle", ["psi"])].
(** the quantities of the events of an analysis *)
Definition event_parameters (c : command) (obj : env) : list string :=
  match c with
  | SageNpl _ | MonkNpl => parameters (npl_flags obj)
  | SageO3 _ | SageO4 _ => s_parameters (smoothed_flags obj)
  | _ => []
  end.
Definition masses (c : command) : list string :=
  match c with
  | SageNpl _ | MonkNpl => ["mass_1_source"; "mass_2_source"]
  | SageO3 _ | SageO4 _ => ["mass_1_source"; "mass_ratio"]
  | _ => []
  end.
(** the commands with a variable number of components, and the options that give the numbers *)
Definition count_options (c : command) : option (string * string) :=
  match c with
  | SageNpl _ | MonkNpl | SageO3 _ => Some ("--n-pl", "--n-g")
  | SageO4 _ => Some ("--n-bpl", "--n-g")
  | _ => None
  end.
