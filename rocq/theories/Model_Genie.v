(** Model of the generators of synthetic data: gwkanal/n_pls_m_gs/genie.py (main),
    gwkanal/ecc_matters/genie.py (main), the registry of error functions
    (gwkokab/models/wrappers.py) and the reading of the injections (gwkanal/core/population.py:307-310).

    The command line (21 options) is a record [uses]: the option --add-x is the field u_x.  argparse,
    the logger and the Poisson mean are not modelled; the text of the injections file is, as the rows
    that were written to it. *)
From Coq Require Import String Reals List Bool Arith.
From Verif Require Import Model_X Model_Joint Model_Guru Model_Config Model_Key Model_Errors Model_Population Model_NPLMG.
Import ListNotations.
Open Scope string_scope.
Open Scope nat_scope.

(** ** ModelRegistry, gwkokab/models/wrappers.py:5-36 *)
(** the first argument of register: a string, a tuple of strings, a tuple with something else in it, anything else *)
Inductive reg_arg := RStr (s : string) | RTuple (l : list string) | RMixedTuple | ROther.
Fixpoint names_eqb (a b : list string) : bool :=
  match a, b with
  | [], [] => true
  | x :: a, y :: b => String.eqb x y && names_eqb a b
  | _, _ => false
  end.
Section Registry.
Context {M : Type}.
Definition registry_t := list (list string * M).
(** self._registry[key] = model: the position of an existing key is kept *)
Fixpoint reg_set (r : registry_t) (key : list string) (m : M) : registry_t :=
  match r with
  | [] => [(key, m)]
  | (k, v) :: t => if names_eqb k key then (k, m) :: t else (k, v) :: reg_set t key m
  end.
Fixpoint reg_get (r : registry_t) (key : list string) : option M :=
  match r with
  | [] => None
  | (k, v) :: t => if names_eqb k key then Some v else reg_get t key
  end.
(** register, lines 16-28; None: AssertionError or ValueError *)
Definition register (r : registry_t) (parameter : reg_arg) (m : M) : option registry_t :=
  match parameter with
  | RStr s => Some (reg_set r [s] m)
  | RTuple l => Some (reg_set r l m)
  | RMixedTuple | ROther => None
  end.
(** the lookup of __call__, lines 30-36: the argument itself is the key, a string is not a tuple;
    None: NotImplementedError (or TypeError for an argument that cannot be a key) *)
Definition reg_lookup (r : registry_t) (parameter : reg_arg) : option M :=
  match parameter with
  | RTuple l => reg_get r l
  | RStr _ | RMixedTuple | ROther => None
  end.
(** successive calls of register *)
Definition register_all (calls : list (reg_arg * M)) (r : registry_t) : option registry_t :=
  fold_left (fun acc c => match acc with Some r => register r (fst c) (snd c) | None => None end) calls (Some r).
End Registry.
Arguments registry_t M : clear implicits.

(** ** tables of genie.py *)
(** err_params_name, genie.py:198-363 *)
Definition err_params_name (u : uses) : list string :=
  (["scale_eta"; "scale_Mc"]
   ++ (if u_beta_spin_magnitude u || u_spin_magnitude_mixture u then
     ["a_1_high"; "a_1_low"; "a_1_scale"; "a_2_high"; "a_2_low"; "a_2_scale"] (* 199-207 *)
     else [])
   ++ (if u_truncated_normal_spin_x u then
     ["spin_1x_high"; "spin_1x_low"; "spin_1x_scale"; "spin_2x_high"; "spin_2x_low"; "spin_2x_scale"] (* 210-218 *)
     else [])
   ++ (if u_truncated_normal_spin_y u then
     ["spin_1y_high"; "spin_1y_low"; "spin_1y_scale"; "spin_2y_high"; "spin_2y_low"; "spin_2y_scale"] (* 221-229 *)
     else [])
   ++ (if u_truncated_normal_spin_z u then
     ["spin_1z_high"; "spin_1z_low"; "spin_1z_scale"; "spin_2z_high"; "spin_2z_low"; "spin_2z_scale"] (* 232-240 *)
     else [])
   ++ (if u_chi_eff_mixture u || u_skew_normal_chi_eff u then
     ["chi_eff_high"; "chi_eff_low"; "chi_eff_scale"; "chi_eff_cut_low"; "chi_eff_cut_high"] (* 243-250 *)
     else [])
   ++ (if u_truncated_normal_chi_p u then
     ["chi_p_high"; "chi_p_low"; "chi_p_scale"; "chi_p_cut_low"; "chi_p_cut_high"] (* 253-260 *)
     else [])
   ++ (if u_tilt u then
     ["cos_tilt_1_high"; "cos_tilt_1_low"; "cos_tilt_1_scale"; "cos_tilt_2_high"; "cos_tilt_2_low";
      "cos_tilt_2_scale"] (* 263-271 *)
     else [])
   ++ (if u_eccentricity_mixture u then
     ["eccentricity_high"; "eccentricity_low"; "eccentricity_scale"] (* 274-279 *)
     else [])
   ++ (if u_mean_anomaly u then
     ["mean_anomaly_high"; "mean_anomaly_low"; "mean_anomaly_scale"] (* 282-287 *)
     else [])
   ++ (if u_redshift u then
     ["redshift_high"; "redshift_low"; "redshift_scale"] (* 290-295 *)
     else [])
   ++ (if u_cos_iota u then
     ["cos_iota_high"; "cos_iota_low"; "cos_iota_scale"] (* 298-303 *)
     else [])
   ++ (if u_polarization_angle u then
     ["psi_high"; "psi_low"; "psi_scale"] (* 306-311 *)
     else [])
   ++ (if u_right_ascension u then
     ["ra_high"; "ra_low"; "ra_scale"] (* 314-319 *)
     else [])
   ++ (if u_sin_declination u then
     ["dec_high"; "dec_low"; "dec_scale"] (* 322-327 *)
     else [])
   ++ (if u_detection_time u then
     ["detection_time_scale"] (* 330-331 *)
     else [])
   ++ (if u_phi_1 u then
     ["phi_1_high"; "phi_1_low"; "phi_1_scale"] (* 332-337 *)
     else [])
   ++ (if u_phi_2 u then
     ["phi_2_high"; "phi_2_low"; "phi_2_scale"] (* 340-345 *)
     else [])
   ++ (if u_phi_12 u then
     ["phi_12_high"; "phi_12_low"; "phi_12_scale"] (* 348-353 *)
     else [])
   ++ (if u_phi_orb u then
     ["phi_orb_high"; "phi_orb_low"; "phi_orb_scale"] (* 356-361 *)
     else []))%list.

(** parameters_name, genie.py:383-386 and the += of every option *)
Definition parameters_name (u : uses) : list string :=
  (["mass_1_source"; "mass_2_source"]
   ++ (if u_beta_spin_magnitude u then ["a_1"; "a_2"] else []) (* 399 *)
   ++ (if u_spin_magnitude_mixture u then ["a_1"; "a_2"] else []) (* 417 *)
   ++ (if u_truncated_normal_spin_x u then ["spin_1x"; "spin_2x"] else []) (* 486 *)
   ++ (if u_truncated_normal_spin_y u then ["spin_1y"; "spin_2y"] else []) (* 533 *)
   ++ (if u_truncated_normal_spin_z u then ["spin_1z"; "spin_2z"] else []) (* 580 *)
   ++ (if u_chi_eff_mixture u then ["chi_eff"] else []) (* 627 *)
   ++ (if u_skew_normal_chi_eff u then ["chi_eff"] else []) (* 662 *)
   ++ (if u_truncated_normal_chi_p u then ["chi_p"] else []) (* 686 *)
   ++ (if u_tilt u then ["cos_tilt_1"; "cos_tilt_2"] else []) (* 712 *)
   ++ (if u_phi_1 u then ["phi_1"] else []) (* 749 *)
   ++ (if u_phi_2 u then ["phi_2"] else []) (* 774 *)
   ++ (if u_phi_12 u then ["phi_12"] else []) (* 799 *)
   ++ (if u_eccentricity_mixture u then ["eccentricity"] else []) (* 824 *)
   ++ (if u_mean_anomaly u then ["mean_anomaly"] else []) (* 861 *)
   ++ (if u_redshift u then ["redshift"] else []) (* 885 *)
   ++ (if u_right_ascension u then ["ra"] else []) (* 909 *)
   ++ (if u_sin_declination u then ["dec"] else []) (* 933 *)
   ++ (if u_detection_time u then ["detection_time"] else []) (* 957 *)
   ++ (if u_cos_iota u then ["cos_iota"] else []) (* 981 *)
   ++ (if u_polarization_angle u then ["psi"] else []) (* 1005 *)
   ++ (if u_phi_orb u then ["phi_orb"] else []) (* 1029 *))%list.

(** all_params, genie.py:367-1043 *)
Definition genie_all_params (u : uses) (N_pl N_g : nat) : list (string * nat) :=
  ([("alpha_pl", N_pl); ("beta_pl", N_pl); ("log_rate", N_pl + N_g); ("m1_high_g", N_g);
    ("m1_loc_g", N_g); ("m1_low_g", N_g); ("m1_scale_g", N_g); ("m2_high_g", N_g);
    ("m2_loc_g", N_g); ("m2_low_g", N_g); ("m2_scale_g", N_g); ("mmax_pl", N_pl); ("mmin_pl", N_pl)] (* 367-381 *)
   ++ (if u_beta_spin_magnitude u then
     [("a_1_mean_g", N_g); ("a_1_mean_pl", N_pl); ("a_1_variance_g", N_g);
      ("a_1_variance_pl", N_pl); ("a_2_mean_g", N_g); ("a_2_mean_pl", N_pl);
      ("a_2_variance_g", N_g); ("a_2_variance_pl", N_pl)] (* 399-413 *)
     else [])
   ++ (if u_spin_magnitude_mixture u then
     [("a_zeta_g", N_g); ("a_zeta_pl", N_pl); ("a_1_comp1_high_g", N_g);
      ("a_1_comp1_high_pl", N_pl); ("a_1_comp1_loc_g", N_g); ("a_1_comp1_loc_pl", N_pl);
      ("a_1_comp1_low_g", N_g); ("a_1_comp1_low_pl", N_pl); ("a_1_comp1_scale_g", N_g);
      ("a_1_comp1_scale_pl", N_pl); ("a_1_comp2_high_g", N_g); ("a_1_comp2_high_pl", N_pl);
      ("a_1_comp2_loc_g", N_g); ("a_1_comp2_loc_pl", N_pl); ("a_1_comp2_low_g", N_g);
      ("a_1_comp2_low_pl", N_pl); ("a_1_comp2_scale_g", N_g); ("a_1_comp2_scale_pl", N_pl);
      ("a_2_comp1_high_g", N_g); ("a_2_comp1_high_pl", N_pl); ("a_2_comp1_loc_g", N_g);
      ("a_2_comp1_loc_pl", N_pl); ("a_2_comp1_low_g", N_g); ("a_2_comp1_low_pl", N_pl);
      ("a_2_comp1_scale_g", N_g); ("a_2_comp1_scale_pl", N_pl); ("a_2_comp2_high_g", N_g);
      ("a_2_comp2_high_pl", N_pl); ("a_2_comp2_loc_g", N_g); ("a_2_comp2_loc_pl", N_pl);
      ("a_2_comp2_low_g", N_g); ("a_2_comp2_low_pl", N_pl); ("a_2_comp2_scale_g", N_g);
      ("a_2_comp2_scale_pl", N_pl)] (* 417-457 *)
     else [])
   ++ (if u_truncated_normal_spin_x u then
     [("spin_1x_high_g", N_g); ("spin_1x_high_pl", N_pl); ("spin_1x_loc_g", N_g);
      ("spin_1x_loc_pl", N_pl); ("spin_1x_low_g", N_g); ("spin_1x_low_pl", N_pl);
      ("spin_1x_scale_g", N_g); ("spin_1x_scale_pl", N_pl); ("spin_2x_high_g", N_g);
      ("spin_2x_high_pl", N_pl); ("spin_2x_loc_g", N_g); ("spin_2x_loc_pl", N_pl);
      ("spin_2x_low_g", N_g); ("spin_2x_low_pl", N_pl); ("spin_2x_scale_g", N_g);
      ("spin_2x_scale_pl", N_pl)] (* 486-505 *)
     else [])
   ++ (if u_truncated_normal_spin_y u then
     [("spin_1y_high_g", N_g); ("spin_1y_high_pl", N_pl); ("spin_1y_loc_g", N_g);
      ("spin_1y_loc_pl", N_pl); ("spin_1y_low_g", N_g); ("spin_1y_low_pl", N_pl);
      ("spin_1y_scale_g", N_g); ("spin_1y_scale_pl", N_pl); ("spin_2y_high_g", N_g);
      ("spin_2y_high_pl", N_pl); ("spin_2y_loc_g", N_g); ("spin_2y_loc_pl", N_pl);
      ("spin_2y_low_g", N_g); ("spin_2y_low_pl", N_pl); ("spin_2y_scale_g", N_g);
      ("spin_2y_scale_pl", N_pl)] (* 533-552 *)
     else [])
   ++ (if u_truncated_normal_spin_z u then
     [("spin_1z_high_g", N_g); ("spin_1z_high_pl", N_pl); ("spin_1z_loc_g", N_g);
      ("spin_1z_loc_pl", N_pl); ("spin_1z_low_g", N_g); ("spin_1z_low_pl", N_pl);
      ("spin_1z_scale_g", N_g); ("spin_1z_scale_pl", N_pl); ("spin_2z_high_g", N_g);
      ("spin_2z_high_pl", N_pl); ("spin_2z_loc_g", N_g); ("spin_2z_loc_pl", N_pl);
      ("spin_2z_low_g", N_g); ("spin_2z_low_pl", N_pl); ("spin_2z_scale_g", N_g);
      ("spin_2z_scale_pl", N_pl)] (* 580-599 *)
     else [])
   ++ (if u_chi_eff_mixture u then
     [("chi_eff_comp1_high_g", N_g); ("chi_eff_comp1_high_pl", N_pl); ("chi_eff_comp1_loc_g", N_g);
      ("chi_eff_comp1_loc_pl", N_pl); ("chi_eff_comp1_low_g", N_g); ("chi_eff_comp1_low_pl", N_pl);
      ("chi_eff_comp1_scale_g", N_g); ("chi_eff_comp1_scale_pl", N_pl);
      ("chi_eff_comp2_high_g", N_g); ("chi_eff_comp2_high_pl", N_pl); ("chi_eff_comp2_loc_g", N_g);
      ("chi_eff_comp2_loc_pl", N_pl); ("chi_eff_comp2_low_g", N_g); ("chi_eff_comp2_low_pl", N_pl);
      ("chi_eff_comp2_scale_g", N_g); ("chi_eff_comp2_scale_pl", N_pl); ("chi_eff_zeta_g", N_g);
      ("chi_eff_zeta_pl", N_pl)] (* 627-648 *)
     else [])
   ++ (if u_skew_normal_chi_eff u then
     [("chi_eff_epsilon_g", N_g); ("chi_eff_epsilon_pl", N_pl); ("chi_eff_loc_g", N_g);
      ("chi_eff_loc_pl", N_pl); ("chi_eff_scale_g", N_g); ("chi_eff_scale_pl", N_pl)] (* 662-671 *)
     else [])
   ++ (if u_truncated_normal_chi_p u then
     [("chi_p_high_g", N_g); ("chi_p_high_pl", N_pl); ("chi_p_loc_g", N_g); ("chi_p_loc_pl", N_pl);
      ("chi_p_low_g", N_g); ("chi_p_low_pl", N_pl); ("chi_p_scale_g", N_g); ("chi_p_scale_pl", N_pl)] (* 686-697 *)
     else [])
   ++ (if u_tilt u then
     [("cos_tilt_zeta_g", N_g); ("cos_tilt_zeta_pl", N_pl); ("cos_tilt_1_scale_g", N_g);
      ("cos_tilt_1_scale_pl", N_pl); ("cos_tilt_2_scale_g", N_g); ("cos_tilt_2_scale_pl", N_pl)] (* 712-721 *)
     else [])
   ++ (if u_phi_1 u then
     [("phi_1_high_g", N_g); ("phi_1_high_pl", N_pl); ("phi_1_low_g", N_g); ("phi_1_low_pl", N_pl)] (* 749-757 *)
     else [])
   ++ (if u_phi_2 u then
     [("phi_2_high_g", N_g); ("phi_2_high_pl", N_pl); ("phi_2_low_g", N_g); ("phi_2_low_pl", N_pl)] (* 774-782 *)
     else [])
   ++ (if u_phi_12 u then
     [("phi_12_high_g", N_g); ("phi_12_high_pl", N_pl); ("phi_12_low_g", N_g);
      ("phi_12_low_pl", N_pl)] (* 799-807 *)
     else [])
   ++ (if u_eccentricity_mixture u then
     [("eccentricity_comp1_high_g", N_g); ("eccentricity_comp1_high_pl", N_pl);
      ("eccentricity_comp1_loc_g", N_g); ("eccentricity_comp1_loc_pl", N_pl);
      ("eccentricity_comp1_low_g", N_g); ("eccentricity_comp1_low_pl", N_pl);
      ("eccentricity_comp1_scale_g", N_g); ("eccentricity_comp1_scale_pl", N_pl);
      ("eccentricity_comp2_high_g", N_g); ("eccentricity_comp2_high_pl", N_pl);
      ("eccentricity_comp2_loc_g", N_g); ("eccentricity_comp2_loc_pl", N_pl);
      ("eccentricity_comp2_low_g", N_g); ("eccentricity_comp2_low_pl", N_pl);
      ("eccentricity_comp2_scale_g", N_g); ("eccentricity_comp2_scale_pl", N_pl);
      ("eccentricity_zeta_g", N_g); ("eccentricity_zeta_pl", N_pl)] (* 824-845 *)
     else [])
   ++ (if u_mean_anomaly u then
     [("mean_anomaly_high_g", N_g); ("mean_anomaly_high_pl", N_pl); ("mean_anomaly_low_g", N_g);
      ("mean_anomaly_low_pl", N_pl)] (* 861-869 *)
     else [])
   ++ (if u_redshift u then
     [("redshift_kappa_g", N_g); ("redshift_kappa_pl", N_pl); ("redshift_z_max_g", N_g);
      ("redshift_z_max_pl", N_pl)] (* 885-893 *)
     else [])
   ++ (if u_right_ascension u then
     [("ra_high_g", N_g); ("ra_high_pl", N_pl); ("ra_low_g", N_g); ("ra_low_pl", N_pl)] (* 909-917 *)
     else [])
   ++ (if u_sin_declination u then
     [("dec_high_g", N_g); ("dec_high_pl", N_pl); ("dec_low_g", N_g); ("dec_low_pl", N_pl)] (* 933-941 *)
     else [])
   ++ (if u_detection_time u then
     [("detection_time_high_g", N_g); ("detection_time_high_pl", N_pl);
      ("detection_time_low_g", N_g); ("detection_time_low_pl", N_pl)] (* 957-965 *)
     else [])
   ++ (if u_cos_iota u then
     [("cos_iota_high_g", N_g); ("cos_iota_high_pl", N_pl); ("cos_iota_low_g", N_g);
      ("cos_iota_low_pl", N_pl)] (* 981-989 *)
     else [])
   ++ (if u_polarization_angle u then
     [("psi_high_g", N_g); ("psi_high_pl", N_pl); ("psi_low_g", N_g); ("psi_low_pl", N_pl)] (* 1005-1013 *)
     else [])
   ++ (if u_phi_orb u then
     [("phi_orb_high_g", N_g); ("phi_orb_high_pl", N_pl); ("phi_orb_low_g", N_g);
      ("phi_orb_low_pl", N_pl)] (* 1029-1037 *)
     else []))%list.

(** the options that reach the model, model_param.update, genie.py:1060-1085: use_truncated_normal_chi_p
    is not among the keys, NPowerlawMGaussian uses its default False *)
Definition model_uses (u : uses) : uses :=
  {| u_beta_spin_magnitude := u_beta_spin_magnitude u;
     u_spin_magnitude_mixture := u_spin_magnitude_mixture u;
     u_truncated_normal_spin_x := u_truncated_normal_spin_x u;
     u_truncated_normal_spin_y := u_truncated_normal_spin_y u;
     u_truncated_normal_spin_z := u_truncated_normal_spin_z u;
     u_chi_eff_mixture := u_chi_eff_mixture u;
     u_skew_normal_chi_eff := u_skew_normal_chi_eff u;
     u_truncated_normal_chi_p := false;
     u_tilt := u_tilt u;
     u_eccentricity_mixture := u_eccentricity_mixture u;
     u_redshift := u_redshift u;
     u_cos_iota := u_cos_iota u;
     u_phi_12 := u_phi_12 u;
     u_polarization_angle := u_polarization_angle u;
     u_right_ascension := u_right_ascension u;
     u_sin_declination := u_sin_declination u;
     u_detection_time := u_detection_time u;
     u_phi_1 := u_phi_1 u;
     u_phi_2 := u_phi_2 u;
     u_phi_orb := u_phi_orb u;
     u_mean_anomaly := u_mean_anomaly u |}.
(** extended_params, genie.py:1054-1056 *)
Definition extended_params (u : uses) (N_pl N_g : nat) : list string :=
  flat_map (fun p => expand_arguments (fst p) (snd p)) (genie_all_params u N_pl N_g).
(** JSON null is None *)
Definition value_of (v : cval) : option cval := match v with CNull => None | _ => Some v end.

Section Genie.
(** re.fullmatch *)
Variable fullmatch : string -> string -> bool.
(** model_fn of the factory applied to model_param, genie.py:1058-1085 and population.py:142; the keys
    N_pl, N_g and use_... are the other arguments *)
Definition genie_model (u : uses) (N_pl N_g : nat) (model_json : config) : option (mixture cval) :=
  n_powerlaw_m_gaussian (CNum (Fin 1%R)) (CNum (Fin 0%R)) N_pl N_g (model_uses u)
    (map (fun p => (fst p, value_of (snd p))) (match_all fullmatch (extended_params u N_pl N_g) model_json)).

(** ** error functions *)
Inductive rows_outcome := RowsRaised | RowsRunning | Rows (l : list (list X)).
Definition column_of (o : outcome) : rows_outcome :=
  match o with Raised => RowsRaised | Running => RowsRunning | Returned l => Rows (map (fun x => [x]) l) end.
(** an error function: the values of its parameters, the number of samples, the key, and the number of
    rounds of resampling it may take *)
Definition genie_err := list X -> nat -> rng -> nat -> rows_outcome.
(** jnp.mod for a positive period *)
Definition xmod (x : X) (period : R) : X :=
  match x with
  | Fin r => Fin (r - period * IZR (Int_part (r / period)))%R
  | _ => NaN
  end.

(** dist.TruncatedNormal(loc, scale, low, high).sample(key, (size,)) *)
Variable truncated_normal : X -> cval -> cval -> cval -> rng -> nat -> list X.
(** dist.Normal(loc, scale).sample(key, (size,)); a LogNormal is its exponential *)
Variable normal : X -> cval -> rng -> nat -> list X.
(** banana_error_m1_m2(x, size, key, scale_Mc, scale_eta), see Model_Errors *)
Variable banana_rows : list X -> nat -> rng -> cval -> cval -> list (list X).
(** err_params_value *)
Variable err : list (string * cval).
(** err_params_value[name]; None: KeyError *)
Definition err_item (name : string) : option cval := dget err name.
(** err_params_value.get(name) and err_params_value.get(name, default) *)
Definition err_get (name : string) : cval := match dget err name with Some v => v | None => CNull end.
Definition err_get_or (name : string) (default : cval) : cval := match dget err name with Some v => v | None => default end.
Definition head (x : list X) : X := nth 0 x NaN.
Definition present (v : cval) : option R := match v with CNull => None | _ => Some 0%R end.
(** partial(truncated_normal_error, scale=..., low=..., high=..., cut_low, cut_high) *)
Definition truncated_error (p : string) (cut_low cut_high : option X) : option genie_err :=
  option_map (fun scale x size key fuel =>
    column_of (truncated_normal_error
      (truncated_normal (head x) scale (err_get (p ++ "_low")) (err_get (p ++ "_high")))
      cut_low cut_high (present scale) size key fuel))
    (err_item (p ++ "_scale")).
(** the same with the cuts read from the file, genie.py:651-660, 674-683, 702-711; comparing with
    anything but a number raises *)
Definition cut_of (v : cval) : option (option X) :=
  match v with CNull => Some None | CNum x => Some (Some x) | _ => None end.
Definition truncated_error_cuts (p : string) : option genie_err :=
  match err_item (p ++ "_scale"), cut_of (err_get (p ++ "_cut_low")), cut_of (err_get (p ++ "_cut_high")) with
  | Some _, Some cl, Some ch => truncated_error p cl ch
  | Some _, _, _ => Some (fun _ _ _ _ => RowsRaised)
  | None, _, _ => None
  end.
(** phi_1_error, genie.py:761-771, and the like for phi_2 (786-796), phi_12 (811-821), mean_anomaly
    (873-881), ra (921-929), psi (1017-1025) and phi_orb (1041-1051); the keys are read when it is called *)
Definition angle_error (p : string) (period : R) : genie_err :=
  fun x size key _ =>
    match err_item (p ++ "_scale") with
    | None => RowsRaised
    | Some scale =>
      Rows (map (fun v => [xmod v period])
        (truncated_normal (head x) scale (err_get_or (p ++ "_low") (CNum (Fin 0%R)))
           (err_get_or (p ++ "_high") (CNum (Fin period))) key size))
    end.
(** detection_time_error, genie.py:969-977 *)
Definition detection_time_error : genie_err :=
  fun x size key _ =>
    match err_item "detection_time_scale" with
    | None => RowsRaised
    | Some scale => Rows (map (fun v => [xexp v]) (normal (xln (xmax (head x) (Fin (1 / 1000000)%R))) scale key size))
    end.
(** the lambda of genie.py:388-397 *)
Definition masses_error : genie_err :=
  fun x size key _ =>
    match err_item "scale_Mc", err_item "scale_eta" with
    | Some c, Some e => Rows (banana_rows x size key c e)
    | _, _ => RowsRaised
    end.

Definition when {A} (b : bool) (l : list A) : list A := if b then l else [].
Definition cut (l h : R) (p : string) : reg_arg * option genie_err := (RStr p, truncated_error p (Some (Fin l)) (Some (Fin h))).
Definition angle (p : string) (period : R) : reg_arg * option genie_err := (RStr p, Some (angle_error p period)).
(** the calls of error_magazine.register, genie.py:388-1052; None: a KeyError while the arguments are evaluated *)
Definition register_calls (u : uses) : list (reg_arg * option genie_err) :=
  ([(RTuple ["mass_1_source"; "mass_2_source"], Some masses_error)] (* 388 *)
   ++ when (u_beta_spin_magnitude u || u_spin_magnitude_mixture u) [cut 0 1 "a_1"; cut 0 1 "a_2"] (* 462 *)
   ++ when (u_truncated_normal_spin_x u) [cut (-1) 1 "spin_1x"; cut (-1) 1 "spin_2x"] (* 509 *)
   ++ when (u_truncated_normal_spin_y u) [cut (-1) 1 "spin_1y"; cut (-1) 1 "spin_2y"] (* 556 *)
   ++ when (u_truncated_normal_spin_z u) [cut (-1) 1 "spin_1z"; cut (-1) 1 "spin_2z"] (* 603 *)
   ++ when (u_chi_eff_mixture u) [(RStr "chi_eff", truncated_error_cuts "chi_eff")] (* 651 *)
   ++ when (u_skew_normal_chi_eff u) [(RStr "chi_eff", truncated_error_cuts "chi_eff")] (* 674 *)
   ++ when (u_truncated_normal_chi_p u) [(RStr "chi_p", truncated_error_cuts "chi_p")] (* 700 *)
   ++ when (u_tilt u) [cut (-1) 1 "cos_tilt_1"; cut (-1) 1 "cos_tilt_2"] (* 725 *)
   ++ when (u_phi_1 u) [angle "phi_1" (2 * PI)] (* 772 *)
   ++ when (u_phi_2 u) [angle "phi_2" (2 * PI)] (* 797 *)
   ++ when (u_phi_12 u) [angle "phi_12" (2 * PI)] (* 822 *)
   ++ when (u_eccentricity_mixture u) [cut 0 1 "eccentricity"] (* 849 *)
   ++ when (u_mean_anomaly u) [angle "mean_anomaly" (2 * PI)] (* 883 *)
   ++ when (u_redshift u) [(RStr "redshift", truncated_error "redshift" (Some (Fin (1 / 1000)%R)) None)] (* 897 *)
   ++ when (u_right_ascension u) [angle "ra" (2 * PI)] (* 931 *)
   ++ when (u_sin_declination u) [cut (-1) 1 "dec"] (* 945 *)
   ++ when (u_detection_time u) [(RStr "detection_time", Some detection_time_error)] (* 979 *)
   ++ when (u_cos_iota u) [cut (-1) 1 "cos_iota"] (* 993 *)
   ++ when (u_polarization_angle u) [angle "psi" PI] (* 1027 *)
   ++ when (u_phi_orb u) [angle "phi_orb" (2 * PI)] (* 1052 *))%list.
(** error_magazine.registry after main has run; it is empty before *)
Definition error_registry (u : uses) : option (registry_t genie_err) :=
  match map_opt (fun c => option_map (pair (fst c)) (snd c)) (register_calls u) with
  | Some calls => register_all calls []
  | None => None
  end.

(** ** gwkanal/ecc_matters/genie.py *)
(** ecc_error_fn, lines 99-110: jnp.full_like(mask, nan) has the type of the mask, so it is True,
    and jnp.where turns True into 1.0 *)
Definition ecc_error_fn (x : list X) (size : nat) (key : rng) : option (list X) :=
  match err_item "scale", err_item "low", err_item "high" with
  | Some scale, Some low, Some high =>
    Some (map (fun e => if xltb e (Fin 0%R) || xltb (Fin 1%R) e then Fin 1%R else e)
              (truncated_normal (head x) scale low high key size))
  | _, _, _ => None
  end.
End Genie.

(** ** population.py:307-310: np.loadtxt(injections).reshape(-1, len(parameters)); None: ValueError.
    The file holds one line per generated row. *)
Fixpoint chunks {A} (k n : nat) (l : list A) : list (list A) :=
  match n with O => [] | S n => firstn k l :: chunks k n (skipn k l) end.
Definition reread {A} (k : nat) (rows : list (list A)) : option (list (list A)) :=
  let flat := concat rows in
  if length flat mod k =? 0 then Some (chunks k (length flat / k) flat) else None.
