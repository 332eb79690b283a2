(** Model of the power law / Gaussian mixture and of its analysis front end:
    gwkokab/models/hybrids/_ncombination.py, gwkokab/models/hybrids/_npowerlawmgaussian.py,
    gwkanal/n_pls_m_gs/sage.py, gwkanal/utils/common.py (expand_arguments).

    A numpyro distribution is kept as its class and its keyword arguments (a stacked argument is the
    list of what is stacked, a scalar one a list of length 1; None is kept, it means unbounded).
    validate_args and the tensor shapes of the arguments are not modelled. *)
From Coq Require Import Decimal DecimalString.
From Coq Require Import String List Bool Arith.
From Verif Require Import Model_X Model_Joint Model_Guru Model_Config.
Import ListNotations.
Open Scope string_scope.
Open Scope nat_scope.

(** f"{i}" *)
Definition decimal (i : nat) : string := NilEmpty.string_of_uint (Nat.to_uint i).
(** expand_arguments, common.py:57-77 *)
Definition expand_arguments (arg : string) (n : nat) : list string :=
  map (fun i => arg ++ "_" ++ decimal i) (seq 0 n).

Inductive kind :=
| KBetaFromMeanVar
| KTruncatedNormal
| KUniform
| KTwoTruncatedNormalMixture
| KNDTwoTruncatedNormalMixture
| KIndependentSpinOrientation
| KSkewNormal
| KPowerlawRedshift
| KPowerlawPrimaryMassRatio
| KMinimumTilt
| KPowerlaw
| KBrokenPowerlaw.
(** number of event coordinates.  NDTwoTruncatedNormalMixture is called with stacks of two values and
    batch_dim = 1 (sundry/_models.py:90-165), IndependentSpinOrientationGaussianIsotropic with a stack
    of two scales (spin/_models.py:84-126), MinimumTiltModelExtended is a density of two cosines,
    PowerlawPrimaryMassRatio of two masses.  The last three classes are used by Model_Smoothed. *)
Definition event_dim (k : kind) : nat :=
  match k with
  | KNDTwoTruncatedNormalMixture | KIndependentSpinOrientation | KPowerlawPrimaryMassRatio | KMinimumTilt => 2
  | _ => 1
  end.

Section Build.
Context {V : Type}.
(** the literals 1.0 and 0.0 *)
Variables one zero : V.
Definition params_t := list (string * option V).
Record dist := mk_dist { d_kind : kind; d_args : list (string * list (option V)) }.

(** one read of a hyper-parameter: its name without the index, is_necessary, default *)
Definition read := (string * bool * option V)%type.
Definition fetch (params : params_t) (i : nat) (r : read) : option (option V) :=
  let '(name, necessary, default) := r in
  get_parameter params [name ++ "_" ++ decimal i; name] necessary default.
Definition need (name : string) : read := (name, true, None).
Definition optional (name : string) : read := (name, false, None).
Definition or_else (name : string) (d : V) : read := (name, true, Some d).

(** the body shared by every create_ function: for i in range(N), read the hyper-parameters of
    component i and call the class with them *)
Definition create (N : nat) (k : kind) (fields : list (string * list read)) (params : params_t)
  : option (list dist) :=
  map_opt
    (fun i =>
       option_map (mk_dist k)
         (map_opt (fun f => option_map (fun vs => (fst f, vs)) (map_opt (fetch params i) (snd f))) fields))
    (seq 0 N).

(** create_beta_distributions, _ncombination.py:99-146 *)
Definition create_beta_distributions (N : nat) (parameter_name component_type : string) (params : params_t) :=
  create N KBetaFromMeanVar
    [("mean", [need (parameter_name ++ "_mean_" ++ component_type)]);
     ("variance", [need (parameter_name ++ "_variance_" ++ component_type)])] params.
(** create_truncated_normal_distributions, _ncombination.py:149-236 *)
Definition create_truncated_normal_distributions (N : nat) (parameter_name component_type : string) (params : params_t) :=
  create N KTruncatedNormal
    [("loc", [need (parameter_name ++ "_loc_" ++ component_type)]);
     ("scale", [need (parameter_name ++ "_scale_" ++ component_type)]);
     ("low", [optional (parameter_name ++ "_low_" ++ component_type)]);
     ("high", [optional (parameter_name ++ "_high_" ++ component_type)])] params.
(** create_independent_spin_orientation_gaussian_isotropic, _ncombination.py:239-290 *)
Definition create_independent_spin_orientation_gaussian_isotropic
  (N : nat) (parameter_name component_type : string) (params : params_t) :=
  create N KIndependentSpinOrientation
    [("zeta", [need ("cos_tilt_zeta_" ++ component_type)]);
     ("scale", [need ("cos_tilt_1_scale_" ++ component_type); need ("cos_tilt_2_scale_" ++ component_type)])]
    params.
(** create_powerlaw_primary_mass_ratios, _ncombination.py:293-338; the transformation to component
    masses is part of the class here *)
Definition create_powerlaw_primary_mass_ratios (N : nat) (params : params_t) :=
  create N KPowerlawPrimaryMassRatio
    [("alpha", [need "alpha_pl"]); ("beta", [need "beta_pl"]);
     ("mmin", [need "mmin_pl"]); ("mmax", [need "mmax_pl"])] params.
(** create_powerlaw_redshift, _ncombination.py:341-384 *)
Definition create_powerlaw_redshift (N : nat) (parameter_name component_type : string) (params : params_t) :=
  create N KPowerlawRedshift
    [("kappa", [need (parameter_name ++ "_kappa_" ++ component_type)]);
     ("z_max", [need (parameter_name ++ "_z_max_" ++ component_type)])] params.
(** create_uniform_distributions, _ncombination.py:387-443 *)
Definition create_uniform_distributions (N : nat) (parameter_name component_type : string) (params : params_t) :=
  create N KUniform
    [("low", [need (parameter_name ++ "_low_" ++ component_type)]);
     ("high", [need (parameter_name ++ "_high_" ++ component_type)])] params.
(** create_two_truncated_normal_mixture, _ncombination.py:612-690 *)
Definition create_two_truncated_normal_mixture (N : nat) (parameter_name component_type : string) (params : params_t) :=
  create N KTwoTruncatedNormalMixture
    [("comp1_high", [optional (parameter_name ++ "_comp1_high_" ++ component_type)]);
     ("comp1_loc", [need (parameter_name ++ "_comp1_loc_" ++ component_type)]);
     ("comp1_low", [optional (parameter_name ++ "_comp1_low_" ++ component_type)]);
     ("comp2_high", [optional (parameter_name ++ "_comp2_high_" ++ component_type)]);
     ("comp2_loc", [need (parameter_name ++ "_comp2_loc_" ++ component_type)]);
     ("comp2_low", [optional (parameter_name ++ "_comp2_low_" ++ component_type)]);
     ("comp1_scale", [need (parameter_name ++ "_comp1_scale_" ++ component_type)]);
     ("comp2_scale", [need (parameter_name ++ "_comp2_scale_" ++ component_type)]);
     ("zeta", [need (parameter_name ++ "_zeta_" ++ component_type)])] params.
(** create_spin_magnitude_mixture_models, _ncombination.py:693-793 *)
Definition create_spin_magnitude_mixture_models (N : nat) (parameter_name component_type : string) (params : params_t) :=
  create N KNDTwoTruncatedNormalMixture
    [("zeta", [need ("a_zeta_" ++ component_type)]);
     ("comp1_high", [or_else ("a_1_comp1_high_" ++ component_type) one; or_else ("a_2_comp1_high_" ++ component_type) one]);
     ("comp1_loc", [need ("a_1_comp1_loc_" ++ component_type); need ("a_2_comp1_loc_" ++ component_type)]);
     ("comp1_low", [or_else ("a_1_comp1_low_" ++ component_type) zero; or_else ("a_2_comp1_low_" ++ component_type) zero]);
     ("comp1_scale", [need ("a_1_comp1_scale_" ++ component_type); need ("a_2_comp1_scale_" ++ component_type)]);
     ("comp2_high", [or_else ("a_1_comp2_high_" ++ component_type) one; or_else ("a_2_comp2_high_" ++ component_type) one]);
     ("comp2_loc", [need ("a_1_comp2_loc_" ++ component_type); need ("a_2_comp2_loc_" ++ component_type)]);
     ("comp2_low", [or_else ("a_1_comp2_low_" ++ component_type) zero; or_else ("a_2_comp2_low_" ++ component_type) zero]);
     ("comp2_scale", [need ("a_1_comp2_scale_" ++ component_type); need ("a_2_comp2_scale_" ++ component_type)])]
    params.
(** create_gwtc4_effective_spin_skew_normal_models, _ncombination.py:796-846 *)
Definition create_gwtc4_effective_spin_skew_normal_models
  (N : nat) (parameter_name component_type : string) (params : params_t) :=
  create N KSkewNormal
    [("loc", [need (parameter_name ++ "_loc_" ++ component_type)]);
     ("scale", [need (parameter_name ++ "_scale_" ++ component_type)]);
     ("epsilon", [need (parameter_name ++ "_epsilon_" ++ component_type)])] params.

(** combine_distributions, _ncombination.py:90-96; zip stops at the shorter list *)
Definition combine_distributions (base_dists : list (list dist)) (add_dists : list dist) : list (list dist) :=
  map (fun p => fst p ++ [snd p])%list (combine base_dists add_dists).

(** keyword arguments of NPowerlawMGaussian, _npowerlawmgaussian.py:400-427 *)
Record uses := {
  u_beta_spin_magnitude : bool; u_spin_magnitude_mixture : bool;
  u_truncated_normal_spin_x : bool; u_truncated_normal_spin_y : bool; u_truncated_normal_spin_z : bool;
  u_chi_eff_mixture : bool; u_skew_normal_chi_eff : bool; u_truncated_normal_chi_p : bool;
  u_tilt : bool; u_eccentricity_mixture : bool; u_redshift : bool; u_cos_iota : bool; u_phi_12 : bool;
  u_polarization_angle : bool; u_right_ascension : bool; u_sin_declination : bool; u_detection_time : bool;
  u_phi_1 : bool; u_phi_2 : bool; u_phi_orb : bool; u_mean_anomaly : bool }.

Definition builder := nat -> string -> string -> params_t -> option (list dist).
(** _info_collection, _npowerlawmgaussian.py:110-138 *)
Definition info_collection (u : uses) : list (bool * string * builder) :=
  [(u_beta_spin_magnitude u, "a_1", create_beta_distributions);
   (u_beta_spin_magnitude u, "a_2", create_beta_distributions);
   (u_spin_magnitude_mixture u, "a_1_a_2", create_spin_magnitude_mixture_models);
   (u_truncated_normal_spin_x u, "spin_1x", create_truncated_normal_distributions);
   (u_truncated_normal_spin_x u, "spin_2x", create_truncated_normal_distributions);
   (u_truncated_normal_spin_y u, "spin_1y", create_truncated_normal_distributions);
   (u_truncated_normal_spin_y u, "spin_2y", create_truncated_normal_distributions);
   (u_truncated_normal_spin_z u, "spin_1z", create_truncated_normal_distributions);
   (u_truncated_normal_spin_z u, "spin_2z", create_truncated_normal_distributions);
   (u_chi_eff_mixture u, "chi_eff", create_two_truncated_normal_mixture);
   (u_skew_normal_chi_eff u, "chi_eff", create_gwtc4_effective_spin_skew_normal_models);
   (u_truncated_normal_chi_p u, "chi_p", create_truncated_normal_distributions);
   (u_tilt u, "cos_tilt_1_cos_tilt_2", create_independent_spin_orientation_gaussian_isotropic);
   (u_phi_1 u, "phi_1", create_uniform_distributions);
   (u_phi_2 u, "phi_2", create_uniform_distributions);
   (u_phi_12 u, "phi_12", create_uniform_distributions);
   (u_eccentricity_mixture u, "eccentricity", create_two_truncated_normal_mixture);
   (u_mean_anomaly u, "mean_anomaly", create_uniform_distributions);
   (u_redshift u, "redshift", create_powerlaw_redshift);
   (u_right_ascension u, "ra", create_uniform_distributions);
   (u_sin_declination u, "dec", create_uniform_distributions);
   (u_detection_time u, "detection_time", create_uniform_distributions);
   (u_cos_iota u, "cos_iota", create_uniform_distributions);
   (u_polarization_angle u, "psi", create_uniform_distributions);
   (u_phi_orb u, "phi_orb", create_uniform_distributions)].
(** the loop of _build_non_mass_distributions, _npowerlawmgaussian.py:142-155 *)
Definition non_mass_step (N : nat) (component_type : string) (params : params_t)
  (acc : option (list (list dist))) (e : bool * string * builder) : option (list (list dist)) :=
  let '(use, param_name, build_func) := e in
  match acc with
  | None => None
  | Some build_distributions =>
    if use then
      match build_func N param_name component_type params with
      | None => None
      | Some distributions => Some (combine_distributions build_distributions distributions)
      end
    else Some build_distributions
  end.
Definition build_non_mass_distributions (N : nat) (component_type : string)
  (mass_distributions : list (list dist)) (u : uses) (params : params_t) : option (list (list dist)) :=
  fold_left (non_mass_step N component_type params) (info_collection u) (Some mass_distributions).
(** _build_pl_component_distributions, _npowerlawmgaussian.py:160-276 *)
Definition build_pl_component_distributions (N : nat) (u : uses) (params : params_t) : option (list (list dist)) :=
  match create_powerlaw_primary_mass_ratios N params with
  | None => None
  | Some powerlaws => build_non_mass_distributions N "pl" (map (fun p => [p]) powerlaws) u params
  end.
(** _build_g_component_distributions, _npowerlawmgaussian.py:279-397; jax.tree.map over two lists of
    the same length *)
Definition build_g_component_distributions (N : nat) (u : uses) (params : params_t) : option (list (list dist)) :=
  match create_truncated_normal_distributions N "m1" "g" params,
        create_truncated_normal_distributions N "m2" "g" params with
  | Some m1_dists, Some m2_dists =>
    build_non_mass_distributions N "g" (map (fun p => [fst p; snd p]) (combine m1_dists m2_dists)) u params
  | _, _ => None
  end.

(** ScaledMixture: log rates and, per component, the arguments of JointDistribution *)
Record mixture := { log_rates : list V; components : list (list dist) }.
(** NPowerlawMGaussian, _npowerlawmgaussian.py:400-end.  A local variable that was never assigned
    raises; so do a log rate that is absent (KeyError) or None (jnp.stack), and a stack of none. *)
Definition n_powerlaw_m_gaussian (N_pl N_g : nat) (u : uses) (params : params_t) : option mixture :=
  let pl_component_dist := if 0 <? N_pl then Some (build_pl_component_distributions N_pl u params) else None in
  let g_component_dist := if 0 <? N_g then Some (build_g_component_distributions N_g u params) else None in
  let component_dists :=
      if (N_pl =? 0) && negb (N_g =? 0) then match g_component_dist with Some r => r | None => None end
      else if (N_g =? 0) && negb (N_pl =? 0) then match pl_component_dist with Some r => r | None => None end
      else match pl_component_dist, g_component_dist with
           | Some (Some p), Some (Some g) => Some (p ++ g)%list
           | _, _ => None
           end in
  match component_dists,
        map_opt (fun i => match dget params ("log_rate_" ++ decimal i) with Some v => v | None => None end)
                (seq 0 (N_pl + N_g)) with
  | Some cs, Some rs => Some {| log_rates := rs; components := cs |}
  | _, _ => None
  end.
End Build.
Arguments dist V : clear implicits.
Arguments mixture V : clear implicits.
Arguments params_t V : clear implicits.

(** ** gwkanal/n_pls_m_gs/sage.py *)
(** constructor arguments of NPowerlawMGaussianCore that choose the model, sage.py:74-93 *)
Record flags := {
  has_beta_spin_magnitude : bool; use_spin_magnitude_mixture : bool;
  has_truncated_normal_spin_x : bool; has_truncated_normal_spin_y : bool; has_truncated_normal_spin_z : bool;
  use_chi_eff_mixture : bool; use_skew_normal_chi_eff : bool; use_truncated_normal_chi_p : bool;
  has_tilt : bool; use_eccentricity_mixture : bool; has_redshift : bool; has_cos_iota : bool;
  has_phi_12 : bool; has_polarization_angle : bool; has_right_ascension : bool;
  has_sin_declination : bool; has_detection_time : bool }.
(** constants, sage.py:158-180, as the keyword arguments they become; phi_1, phi_2, phi_orb and
    mean_anomaly keep their default False *)
Definition constants (fl : flags) : uses :=
  {| u_beta_spin_magnitude := has_beta_spin_magnitude fl;
     u_spin_magnitude_mixture := use_spin_magnitude_mixture fl;
     u_truncated_normal_spin_x := has_truncated_normal_spin_x fl;
     u_truncated_normal_spin_y := has_truncated_normal_spin_y fl;
     u_truncated_normal_spin_z := has_truncated_normal_spin_z fl;
     u_chi_eff_mixture := use_chi_eff_mixture fl;
     u_skew_normal_chi_eff := use_skew_normal_chi_eff fl;
     u_truncated_normal_chi_p := use_truncated_normal_chi_p fl;
     u_tilt := has_tilt fl;
     u_eccentricity_mixture := use_eccentricity_mixture fl;
     u_redshift := has_redshift fl;
     u_cos_iota := has_cos_iota fl;
     u_phi_12 := has_phi_12 fl;
     u_polarization_angle := has_polarization_angle fl;
     u_right_ascension := has_right_ascension fl;
     u_sin_declination := has_sin_declination fl;
     u_detection_time := has_detection_time fl;
     u_phi_1 := false; u_phi_2 := false; u_phi_orb := false; u_mean_anomaly := false |}.
(** the keys of constants *)
Definition constant_names : list string :=
  ["N_pl"; "N_g"; "use_beta_spin_magnitude"; "use_spin_magnitude_mixture"; "use_truncated_normal_spin_x";
   "use_truncated_normal_spin_y"; "use_truncated_normal_spin_z"; "use_chi_eff_mixture";
   "use_skew_normal_chi_eff"; "use_truncated_normal_chi_p"; "use_tilt"; "use_eccentricity_mixture";
   "use_redshift"; "use_cos_iota"; "use_phi_12"; "use_polarization_angle"; "use_right_ascension";
   "use_sin_declination"; "use_detection_time"].

(** parameters, sage.py:182-219 *)
Definition parameters (fl : flags) : list string :=
  (["mass_1_source"; "mass_2_source"]
   ++ (if has_beta_spin_magnitude fl || use_spin_magnitude_mixture fl then ["a_1"; "a_2"] else [])
   ++ (if has_truncated_normal_spin_x fl then ["spin_1x"; "spin_2x"] else [])
   ++ (if has_truncated_normal_spin_y fl then ["spin_1y"; "spin_2y"] else [])
   ++ (if has_truncated_normal_spin_z fl then ["spin_1z"; "spin_2z"] else [])
   ++ (if use_chi_eff_mixture fl || use_skew_normal_chi_eff fl then ["chi_eff"] else [])
   ++ (if use_truncated_normal_chi_p fl then ["chi_p"] else [])
   ++ (if has_tilt fl then ["cos_tilt_1"; "cos_tilt_2"] else [])
   ++ (if has_phi_12 fl then ["phi_12"] else [])
   ++ (if use_eccentricity_mixture fl then ["eccentricity"] else [])
   ++ (if has_redshift fl then ["redshift"] else [])
   ++ (if has_right_ascension fl then ["ra"] else [])
   ++ (if has_sin_declination fl then ["dec"] else [])
   ++ (if has_detection_time fl then ["detection_time"] else [])
   ++ (if has_cos_iota fl then ["cos_iota"] else [])
   ++ (if has_polarization_angle fl then ["psi"] else []))%list.

(** all_params of model_parameters, sage.py:221-533 *)
Definition all_params (fl : flags) (N_pl N_g : nat) : list (string * nat) :=
  (
    ([("log_rate", N_pl + N_g); ("alpha_pl", N_pl); ("beta_pl", N_pl); ("m1_loc_g", N_g);
     ("m2_loc_g", N_g); ("m1_scale_g", N_g); ("m2_scale_g", N_g); ("m1_low_g", N_g);
     ("m2_low_g", N_g); ("m1_high_g", N_g); ("m2_high_g", N_g); ("mmax_pl", N_pl);
     ("mmin_pl", N_pl)] (* 223-237 *))
    ++
    (if use_spin_magnitude_mixture fl then
    [("a_zeta_g", N_g); ("a_zeta_pl", N_pl); ("a_1_comp1_high_g", N_g);
     ("a_1_comp1_high_pl", N_pl); ("a_1_comp1_loc_g", N_g); ("a_1_comp1_loc_pl", N_pl);
     ("a_1_comp1_low_g", N_g); ("a_1_comp1_low_pl", N_pl); ("a_1_comp1_scale_g", N_g);
     ("a_1_comp1_scale_pl", N_pl); ("a_1_comp2_high_g", N_g); ("a_1_comp2_high_pl", N_pl);
     ("a_1_comp2_loc_g", N_g); ("a_1_comp2_loc_pl", N_pl); ("a_1_comp2_low_g", N_g);
     ("a_1_comp2_low_pl", N_pl); ("a_1_comp2_scale_g", N_g); ("a_1_comp2_scale_pl", N_pl);
     ("a_2_comp1_high_g", N_g); ("a_2_comp1_high_pl", N_pl); ("a_2_comp1_loc_g", N_g);
     ("a_2_comp1_loc_pl", N_pl); ("a_2_comp1_low_g", N_g); ("a_2_comp1_low_pl", N_pl);
     ("a_2_comp1_scale_g", N_g); ("a_2_comp1_scale_pl", N_pl); ("a_2_comp2_high_g", N_g);
     ("a_2_comp2_high_pl", N_pl); ("a_2_comp2_loc_g", N_g); ("a_2_comp2_loc_pl", N_pl);
     ("a_2_comp2_low_g", N_g); ("a_2_comp2_low_pl", N_pl); ("a_2_comp2_scale_g", N_g);
     ("a_2_comp2_scale_pl", N_pl)] (* 239-277 *)
    else [])
    ++
    (if has_beta_spin_magnitude fl then
    [("a_1_mean_g", N_g); ("a_1_mean_pl", N_pl); ("a_1_variance_g", N_g);
     ("a_1_variance_pl", N_pl); ("a_2_mean_g", N_g); ("a_2_mean_pl", N_pl);
     ("a_2_variance_g", N_g); ("a_2_variance_pl", N_pl)] (* 279-291 *)
    else [])
    ++
    (if has_truncated_normal_spin_x fl then
    [("spin_1x_high_g", N_g); ("spin_1x_high_pl", N_pl); ("spin_1x_loc_g", N_g);
     ("spin_1x_loc_pl", N_pl); ("spin_1x_low_g", N_g); ("spin_1x_low_pl", N_pl);
     ("spin_1x_scale_g", N_g); ("spin_1x_scale_pl", N_pl); ("spin_2x_high_g", N_g);
     ("spin_2x_high_pl", N_pl); ("spin_2x_loc_g", N_g); ("spin_2x_loc_pl", N_pl);
     ("spin_2x_low_g", N_g); ("spin_2x_low_pl", N_pl); ("spin_2x_scale_g", N_g);
     ("spin_2x_scale_pl", N_pl)] (* 293-313 *)
    else [])
    ++
    (if has_truncated_normal_spin_y fl then
    [("spin_1y_high_g", N_g); ("spin_1y_high_pl", N_pl); ("spin_1y_loc_g", N_g);
     ("spin_1y_loc_pl", N_pl); ("spin_1y_low_g", N_g); ("spin_1y_low_pl", N_pl);
     ("spin_1y_scale_g", N_g); ("spin_1y_scale_pl", N_pl); ("spin_2y_high_g", N_g);
     ("spin_2y_high_pl", N_pl); ("spin_2y_loc_g", N_g); ("spin_2y_loc_pl", N_pl);
     ("spin_2y_low_g", N_g); ("spin_2y_low_pl", N_pl); ("spin_2y_scale_g", N_g);
     ("spin_2y_scale_pl", N_pl)] (* 315-335 *)
    else [])
    ++
    (if has_truncated_normal_spin_z fl then
    [("spin_1z_high_g", N_g); ("spin_1z_high_pl", N_pl); ("spin_1z_loc_g", N_g);
     ("spin_1z_loc_pl", N_pl); ("spin_1z_low_g", N_g); ("spin_1z_low_pl", N_pl);
     ("spin_1z_scale_g", N_g); ("spin_1z_scale_pl", N_pl); ("spin_2z_high_g", N_g);
     ("spin_2z_high_pl", N_pl); ("spin_2z_loc_g", N_g); ("spin_2z_loc_pl", N_pl);
     ("spin_2z_low_g", N_g); ("spin_2z_low_pl", N_pl); ("spin_2z_scale_g", N_g);
     ("spin_2z_scale_pl", N_pl)] (* 337-357 *)
    else [])
    ++
    (if use_chi_eff_mixture fl then
    [("chi_eff_comp1_high_g", N_g); ("chi_eff_comp1_high_pl", N_pl);
     ("chi_eff_comp1_loc_g", N_g); ("chi_eff_comp1_loc_pl", N_pl);
     ("chi_eff_comp1_low_g", N_g); ("chi_eff_comp1_low_pl", N_pl);
     ("chi_eff_comp1_scale_g", N_g); ("chi_eff_comp1_scale_pl", N_pl);
     ("chi_eff_comp2_high_g", N_g); ("chi_eff_comp2_high_pl", N_pl);
     ("chi_eff_comp2_loc_g", N_g); ("chi_eff_comp2_loc_pl", N_pl);
     ("chi_eff_comp2_low_g", N_g); ("chi_eff_comp2_low_pl", N_pl);
     ("chi_eff_comp2_scale_g", N_g); ("chi_eff_comp2_scale_pl", N_pl);
     ("chi_eff_zeta_g", N_g); ("chi_eff_zeta_pl", N_pl)] (* 359-381 *)
    else [])
    ++
    (if use_skew_normal_chi_eff fl then
    [("chi_eff_epsilon_g", N_g); ("chi_eff_epsilon_pl", N_pl); ("chi_eff_loc_g", N_g);
     ("chi_eff_loc_pl", N_pl); ("chi_eff_scale_g", N_g); ("chi_eff_scale_pl", N_pl)] (* 383-393 *)
    else [])
    ++
    (if use_truncated_normal_chi_p fl then
    [("chi_p_high_g", N_g); ("chi_p_high_pl", N_pl); ("chi_p_loc_g", N_g);
     ("chi_p_loc_pl", N_pl); ("chi_p_low_g", N_g); ("chi_p_low_pl", N_pl);
     ("chi_p_scale_g", N_g); ("chi_p_scale_pl", N_pl)] (* 395-407 *)
    else [])
    ++
    (if has_tilt fl then
    [("cos_tilt_zeta_g", N_g); ("cos_tilt_zeta_pl", N_pl); ("cos_tilt_1_scale_g", N_g);
     ("cos_tilt_1_scale_pl", N_pl); ("cos_tilt_2_scale_g", N_g);
     ("cos_tilt_2_scale_pl", N_pl)] (* 409-419 *)
    else [])
    ++
    (if has_phi_12 fl then
    [("phi_12_high_g", N_g); ("phi_12_high_pl", N_pl); ("phi_12_loc_g", N_g);
     ("phi_12_loc_pl", N_pl); ("phi_12_low_g", N_g); ("phi_12_low_pl", N_pl);
     ("phi_12_scale_g", N_g); ("phi_12_scale_pl", N_pl)] (* 421-433 *)
    else [])
    ++
    (if use_eccentricity_mixture fl then
    [("eccentricity_comp1_high_g", N_g); ("eccentricity_comp1_high_pl", N_pl);
     ("eccentricity_comp1_loc_g", N_g); ("eccentricity_comp1_loc_pl", N_pl);
     ("eccentricity_comp1_low_g", N_g); ("eccentricity_comp1_low_pl", N_pl);
     ("eccentricity_comp1_scale_g", N_g); ("eccentricity_comp1_scale_pl", N_pl);
     ("eccentricity_comp2_high_g", N_g); ("eccentricity_comp2_high_pl", N_pl);
     ("eccentricity_comp2_loc_g", N_g); ("eccentricity_comp2_loc_pl", N_pl);
     ("eccentricity_comp2_low_g", N_g); ("eccentricity_comp2_low_pl", N_pl);
     ("eccentricity_comp2_scale_g", N_g); ("eccentricity_comp2_scale_pl", N_pl);
     ("eccentricity_zeta_g", N_g); ("eccentricity_zeta_pl", N_pl)] (* 435-457 *)
    else [])
    ++
    (if has_redshift fl then
    [("redshift_kappa_g", N_g); ("redshift_kappa_pl", N_pl); ("redshift_z_max_g", N_g);
     ("redshift_z_max_pl", N_pl)] (* 459-467 *)
    else [])
    ++
    (if has_right_ascension fl then
    [("ra_high_g", N_g); ("ra_high_pl", N_pl); ("ra_loc_g", N_g); ("ra_loc_pl", N_pl);
     ("ra_low_g", N_g); ("ra_low_pl", N_pl); ("ra_scale_g", N_g); ("ra_scale_pl", N_pl)] (* 469-481 *)
    else [])
    ++
    (if has_sin_declination fl then
    [("dec_high_g", N_g); ("dec_high_pl", N_pl); ("dec_loc_g", N_g); ("dec_loc_pl", N_pl);
     ("dec_low_g", N_g); ("dec_low_pl", N_pl); ("dec_scale_g", N_g); ("dec_scale_pl", N_pl)] (* 483-495 *)
    else [])
    ++
    (if has_detection_time fl then
    [("detection_time_high_g", N_g); ("detection_time_high_pl", N_pl);
     ("detection_time_low_g", N_g); ("detection_time_low_pl", N_pl)] (* 497-505 *)
    else [])
    ++
    (if has_cos_iota fl then
    [("cos_iota_high_g", N_g); ("cos_iota_high_pl", N_pl); ("cos_iota_loc_g", N_g);
     ("cos_iota_loc_pl", N_pl); ("cos_iota_low_g", N_g); ("cos_iota_low_pl", N_pl);
     ("cos_iota_scale_g", N_g); ("cos_iota_scale_pl", N_pl)] (* 507-519 *)
    else [])
    ++
    (if has_polarization_angle fl then
    [("psi_high_g", N_g); ("psi_high_pl", N_pl); ("psi_loc_g", N_g); ("psi_loc_pl", N_pl);
     ("psi_low_g", N_g); ("psi_low_pl", N_pl); ("psi_scale_g", N_g); ("psi_scale_pl", N_pl)] (* 521-533 *)
    else [])

  )%list.
(** model_parameters, sage.py:221-538 *)
Definition model_parameters (fl : flags) (N_pl N_g : nat) : list string :=
  flat_map (fun p => expand_arguments (fst p) (snd p)) (all_params fl N_pl N_g).

(** mean_variance_check of where_fns_list, sage.py:31-67.  [check] is
    check_min_concentration_for_beta_dist on one pair; an absent key or an unassigned local raises *)
Definition mean_variance_check {V} (check : V -> V -> bool) (N_pl N_g : nat) (kwargs : list (string * V))
  : option bool :=
  let collect (what : string) (n : nat) :=
      map_opt (fun p => dget kwargs ("chi" ++ decimal (snd p) ++ what ++ decimal (fst p)))
              (flat_map (fun j => [(j, 1); (j, 2)]) (seq 0 n)) in
  let both m v := match m, v with
                  | Some m, Some v => Some (forallb (fun p => check (fst p) (snd p)) (combine m v))
                  | _, _ => None
                  end in
  let app a b := match a, b with Some a, Some b => Some (a ++ b)%list | _, _ => None end in
  let means_pl := collect "_mean_pl_" N_pl in
  let vars_pl := collect "_variance_pl_" N_pl in
  let means_g := collect "_mean_g_" N_g in
  let vars_g := collect "_variance_g_" N_g in
  if (0 <? N_pl) && (0 <? N_g) then both (app means_pl means_g) (app vars_pl vars_g)
  else if 0 <? N_pl then both means_pl vars_pl
  else if 0 <? N_g then both means_g vars_g
  else None.
(** where_fns_list, sage.py:25-70: the checks that are run on every proposal *)
Definition where_fns_list {V} (check : V -> V -> bool) (fl : flags)
  : list (nat -> nat -> list (string * V) -> option bool) :=
  if has_beta_spin_magnitude fl then [mean_variance_check check] else [].
