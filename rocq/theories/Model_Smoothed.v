(** Model of the two smoothed mass models and of their analysis front ends:
    gwkokab/models/hybrids/_o3_n_pls_m_gs.py, _o4_n_bpls_m_gs.py, _utils.py (the construction; the
    density is in Model_SmoothedDensity), gwkanal/o3_n_pls_m_gs/sage.py, gwkanal/o4_n_bpls_m_gs/sage.py.

    The conventions are those of Model_NPLMG: a distribution is its class and its arguments. *)
From Coq Require Import Decimal DecimalString.
From Coq Require Import String List Bool Arith.
From Verif Require Import Model_X Model_Joint Model_Guru Model_Config Model_NPLMG.
Import ListNotations.
Open Scope string_scope.
Open Scope nat_scope.

(** the two models: power laws, or broken power laws; N_pl stands for N_bpl in the second *)
Inductive variant := O3 | O4.

(** keyword arguments of NSmoothedPowerlawMSmoothedGaussian and NBrokenPowerlawMGaussian, and
    constructor arguments of the two Core classes *)
Record sflags := {
  sf_beta_spin_magnitude : bool; sf_spin_magnitude_mixture : bool; sf_chi_eff_mixture : bool;
  sf_skew_normal_chi_eff : bool; sf_truncated_normal_chi_p : bool; sf_tilt : bool;
  sf_eccentricity_mixture : bool; sf_redshift : bool }.

Section Build.
Context {V : Type}.
(** the literals 1.0, 0.0 and -1.0, and 1.0 - sum(...) *)
Variables one zero minus_one : V.
Variable complement : list V -> V.

(** create_powerlaws, _ncombination.py:566-609; the change of sign of alpha is part of the class *)
Definition create_powerlaws (N : nat) (params : params_t V) : option (list (dist V)) :=
  create N KPowerlaw [("alpha", [need "alpha_pl"]); ("low", [need "mmin_pl"]); ("high", [need "mmax_pl"])] params.
(** create_broken_powerlaws, _ncombination.py:446-494 *)
Definition create_broken_powerlaws (N : nat) (params : params_t V) : option (list (dist V)) :=
  create N KBrokenPowerlaw
    [("alpha1", [need "alpha1_bpl"]); ("alpha2", [need "alpha2_bpl"]); ("mbreak", [need "m1break_bpl"]);
     ("mmax", [need "m1max_bpl"]); ("mmin", [need "m1min_bpl"])] params.
(** create_minimum_tilt_model, _ncombination.py:497-563 *)
Definition create_minimum_tilt_model (N : nat) (parameter_name component_type : string) (params : params_t V)
  : option (list (dist V)) :=
  create N KMinimumTilt
    [("zeta", [need ("cos_tilt_zeta_" ++ component_type)]);
     ("loc1", [need ("cos_tilt_1_loc_" ++ component_type)]);
     ("loc2", [need ("cos_tilt_2_loc_" ++ component_type)]);
     ("scale1", [need ("cos_tilt_1_scale_" ++ component_type)]);
     ("scale2", [need ("cos_tilt_2_scale_" ++ component_type)]);
     ("minimum1", [or_else ("cos_tilt_1_minimum_" ++ component_type) minus_one]);
     ("minimum2", [or_else ("cos_tilt_2_minimum_" ++ component_type) minus_one])] params.

(** _info_collection, _utils.py:49-61 *)
Definition s_info_collection (fl : sflags) : list (bool * string * @builder V) :=
  [(sf_beta_spin_magnitude fl, "a_1", create_beta_distributions);
   (sf_beta_spin_magnitude fl, "a_2", create_beta_distributions);
   (sf_spin_magnitude_mixture fl, "a_1_a_2", create_spin_magnitude_mixture_models one zero);
   (sf_chi_eff_mixture fl, "chi_eff", create_two_truncated_normal_mixture);
   (sf_skew_normal_chi_eff fl, "chi_eff", create_gwtc4_effective_spin_skew_normal_models);
   (sf_truncated_normal_chi_p fl, "chi_p", create_truncated_normal_distributions);
   (sf_tilt fl, "cos_tilt_1_cos_tilt_2", create_minimum_tilt_model);
   (sf_eccentricity_mixture fl, "eccentricity", create_two_truncated_normal_mixture);
   (sf_redshift fl, "redshift", create_powerlaw_redshift)].
(** build_non_mass_distributions, _utils.py:32-79; the loop is the one of _npowerlawmgaussian.py *)
Definition s_build_non_mass (N : nat) (component_type : string) (mass_distributions : list (list (dist V)))
  (fl : sflags) (params : params_t V) : option (list (list (dist V))) :=
  fold_left (non_mass_step N component_type params) (s_info_collection fl) (Some mass_distributions).
(** the mass distributions and the joint distributions of one kind of components *)
Definition with_rest (N : nat) (component_type : string) (fl : sflags) (params : params_t V)
  (mass_distributions : option (list (dist V))) : option (list (dist V) * list (list (dist V))) :=
  match mass_distributions with
  | None => None
  | Some ms => option_map (fun cs => (ms, cs)) (s_build_non_mass N component_type (map (fun d => [d]) ms) fl params)
  end.
(** _build_pl_component_distributions, _o3_n_pls_m_gs.py:28-63; _build_bpl_component_distributions,
    _o4_n_bpls_m_gs.py:30-67 *)
Definition build_pl (v : variant) (N : nat) (fl : sflags) (params : params_t V) :=
  match v with
  | O3 => with_rest N "pl" fl params (create_powerlaws N params)
  | O4 => with_rest N "bpl" fl params (create_broken_powerlaws N params)
  end.
(** _build_g_component_distributions, _o3_n_pls_m_gs.py:66-107, _o4_n_bpls_m_gs.py:70-109 *)
Definition build_g (N : nat) (fl : sflags) (params : params_t V) :=
  with_rest N "g" fl params (create_truncated_normal_distributions N "m1" "g" params).

(** params.pop(k): KeyError if absent; a null value makes the arithmetic below raise *)
Definition pop (params : params_t V) (k : string) : option (V * params_t V) :=
  match dget params k with
  | Some (Some v) => Some (v, filter (fun p => negb (String.eqb (fst p) k)) params)
  | _ => None
  end.
Fixpoint pop_all (params : params_t V) (ks : list string) : option (list V * params_t V) :=
  match ks with
  | [] => Some ([], params)
  | k :: t =>
    match pop params k with
    | None => None
    | Some (v, params) => option_map (fun r => (v :: fst r, snd r)) (pop_all params t)
    end
  end.

(** the arguments of _SmoothedPowerlawMassRatioAndRest: mixing fractions, mass distributions (they
    determine logZ) and joint distributions of rest_dist *)
Record smoothed := mk_smoothed {
  s_beta : V; s_delta_m1 : V; s_delta_m2 : V; s_log_rate : V; s_m1max : V; s_m1min : V; s_m2min : V;
  s_lambdas : list V; s_masses : list (dist V); s_components : list (list (dist V)) }.

(** the part shared by the two functions, _o3_n_pls_m_gs.py:132-177, _o4_n_bpls_m_gs.py:136-181.
    MixtureGeneral raises if the numbers of fractions and of components differ: no component at all. *)
Definition mixtures (v : variant) (N_pl N_g : nat) (fl : sflags) (params : params_t V)
  : option (list V * list (dist V) * list (list (dist V))) :=
  match pop_all params (map (fun i => "lambda_" ++ decimal i) (seq 0 (N_pl + N_g - 1))) with
  | None => None
  | Some (ls, params) =>
    let lambdas := (ls ++ [complement ls])%list in
    let pl := if 0 <? N_pl then build_pl v N_pl fl params else Some ([], []) in
    let g := if 0 <? N_g then build_g N_g fl params else Some ([], []) in
    match pl, g with
    | Some (pl_dists, pl_component_dist), Some (gaussian_dists, g_component_dist) =>
      let component_dists := (pl_component_dist ++ g_component_dist)%list in
      let mass_dist := (pl_dists ++ gaussian_dists)%list in
      if (length mass_dist =? length lambdas) && (length component_dists =? length lambdas)
      then Some (lambdas, mass_dist, component_dists) else None
    | _, _ => None
    end
  end.
(** NSmoothedPowerlawMSmoothedGaussian, _o3_n_pls_m_gs.py:110-208 *)
Definition n_smoothed_powerlaw (N_pl N_g : nat) (fl : sflags) (params : params_t V) : option smoothed :=
  match pop_all params ["beta"; "delta_m"; "log_rate"; "mmax"; "mmin"] with
  | Some ([beta; delta_m; log_rate; mmax; mmin], params) =>
    match mixtures O3 N_pl N_g fl params with
    | Some (lambdas, mass_dist, component_dists) =>
      Some {| s_beta := beta; s_delta_m1 := delta_m; s_delta_m2 := delta_m; s_log_rate := log_rate;
              s_m1max := mmax; s_m1min := mmin; s_m2min := mmin;
              s_lambdas := lambdas; s_masses := mass_dist; s_components := component_dists |}
    | None => None
    end
  | _ => None
  end.
(** NBrokenPowerlawMGaussian, _o4_n_bpls_m_gs.py:112-213 *)
Definition n_broken_powerlaw (N_bpl N_g : nat) (fl : sflags) (params : params_t V) : option smoothed :=
  match pop_all params ["beta"; "delta_m1"; "delta_m2"; "log_rate"; "m1max"; "m1min"; "m2min"] with
  | Some ([beta; delta_m1; delta_m2; log_rate; m1max; m1min; m2min], params) =>
    match mixtures O4 N_bpl N_g fl params with
    | Some (lambdas, mass_dist, component_dists) =>
      Some {| s_beta := beta; s_delta_m1 := delta_m1; s_delta_m2 := delta_m2; s_log_rate := log_rate;
              s_m1max := m1max; s_m1min := m1min; s_m2min := m2min;
              s_lambdas := lambdas; s_masses := mass_dist; s_components := component_dists |}
    | None => None
    end
  | _ => None
  end.
Definition s_model (v : variant) := match v with O3 => n_smoothed_powerlaw | O4 => n_broken_powerlaw end.
End Build.
Arguments smoothed V : clear implicits.

(** ** gwkanal/o3_n_pls_m_gs/sage.py, gwkanal/o4_n_bpls_m_gs/sage.py *)
(** parameters, o3 sage.py:140-158, o4 sage.py:140-158 *)
Definition s_parameters (fl : sflags) : list string :=
  (["mass_1_source"]
   ++ (if sf_beta_spin_magnitude fl || sf_spin_magnitude_mixture fl then ["a_1"; "a_2"] else [])
   ++ (if sf_chi_eff_mixture fl || sf_skew_normal_chi_eff fl then ["chi_eff"] else [])
   ++ (if sf_truncated_normal_chi_p fl then ["chi_p"] else [])
   ++ (if sf_tilt fl then ["cos_tilt_1"; "cos_tilt_2"] else [])
   ++ (if sf_eccentricity_mixture fl then ["eccentricity"] else [])
   ++ (if sf_redshift fl then ["redshift"] else [])
   ++ ["mass_ratio"])%list.

(** all_params of model_parameters, gwkanal/o3_n_pls_m_gs/sage.py:161-340 *)
Definition all_params_o3 (fl : sflags) (N_pl N_g : nat) : list (string * nat) :=
  (
    ([("alpha_pl", N_pl); ("lambda", N_pl + N_g - 1); ("m1_high_g", N_g); ("m1_loc_g", N_g);
     ("m1_low_g", N_g); ("m1_scale_g", N_g); ("mmax_pl", N_pl); ("mmin_pl", N_pl)] (* 162-171 *))
    ++
    (if sf_spin_magnitude_mixture fl then
    [("a_zeta_g", N_g); ("a_zeta_pl", N_pl); ("a_1_comp1_high_g", N_g);
     ("a_1_comp1_high_pl", N_pl); ("a_1_comp1_loc_g", N_g); ("a_1_comp1_loc_pl", N_pl);
     ("a_1_comp1_low_g", N_g); ("a_1_comp1_low_pl", N_pl); ("a_1_comp1_scale_g", N_g);
     ("a_1_comp1_scale_pl", N_pl); ("a_1_comp2_high_g", N_g); ("a_1_comp2_high_pl", N_pl);
     ("a_1_comp2_loc_g", N_g); ("a_1_comp2_loc_pl", N_pl); ("a_1_comp2_low_g", N_g);
     ("a_1_comp2_low_pl", N_pl); ("a_1_comp2_scale_g", N_g); ("a_1_comp2_scale_pl", N_pl);
     ("a_2_comp1_high_g", N_g); ("a_2_comp1_high_pl", N_pl); ("a_2_comp1_loc_g", N_g);
     ("a_2_comp1_loc_pl", N_pl); ("a_2_comp1_low_g", N_g); ("a_2_comp1_low_pl", N_pl);
     ("a_2_comp1_scale_g", N_g); ("a_2_comp1_scale_pl", N_pl); ("a_2_comp2_high_g", N_g);
     ("a_2_comp2_high_pl", N_pl); ("a_2_comp2_loc_g", N_g); ("a_2_comp2_loc_pl", N_pl);
     ("a_2_comp2_low_g", N_g); ("a_2_comp2_low_pl", N_pl); ("a_2_comp2_scale_g", N_g);
     ("a_2_comp2_scale_pl", N_pl)] (* 173-211 *)
    else [])
    ++
    (if sf_beta_spin_magnitude fl then
    [("a_1_mean_g", N_g); ("a_1_mean_pl", N_pl); ("a_1_variance_g", N_g);
     ("a_1_variance_pl", N_pl); ("a_2_mean_g", N_g); ("a_2_mean_pl", N_pl);
     ("a_2_variance_g", N_g); ("a_2_variance_pl", N_pl)] (* 213-225 *)
    else [])
    ++
    (if sf_chi_eff_mixture fl then
    [("chi_eff_comp1_high_g", N_g); ("chi_eff_comp1_high_pl", N_pl);
     ("chi_eff_comp1_loc_g", N_g); ("chi_eff_comp1_loc_pl", N_pl);
     ("chi_eff_comp1_low_g", N_g); ("chi_eff_comp1_low_pl", N_pl);
     ("chi_eff_comp1_scale_g", N_g); ("chi_eff_comp1_scale_pl", N_pl);
     ("chi_eff_comp2_high_g", N_g); ("chi_eff_comp2_high_pl", N_pl);
     ("chi_eff_comp2_loc_g", N_g); ("chi_eff_comp2_loc_pl", N_pl);
     ("chi_eff_comp2_low_g", N_g); ("chi_eff_comp2_low_pl", N_pl);
     ("chi_eff_comp2_scale_g", N_g); ("chi_eff_comp2_scale_pl", N_pl);
     ("chi_eff_zeta_g", N_g); ("chi_eff_zeta_pl", N_pl)] (* 227-249 *)
    else [])
    ++
    (if sf_skew_normal_chi_eff fl then
    [("chi_eff_epsilon_g", N_g); ("chi_eff_epsilon_pl", N_pl); ("chi_eff_loc_g", N_g);
     ("chi_eff_loc_pl", N_pl); ("chi_eff_scale_g", N_g); ("chi_eff_scale_pl", N_pl)] (* 251-261 *)
    else [])
    ++
    (if sf_truncated_normal_chi_p fl then
    [("chi_p_high_g", N_g); ("chi_p_high_pl", N_pl); ("chi_p_loc_g", N_g);
     ("chi_p_loc_pl", N_pl); ("chi_p_low_g", N_g); ("chi_p_low_pl", N_pl);
     ("chi_p_scale_g", N_g); ("chi_p_scale_pl", N_pl)] (* 263-275 *)
    else [])
    ++
    (if sf_tilt fl then
    [("cos_tilt_zeta_g", N_g); ("cos_tilt_zeta_pl", N_pl); ("cos_tilt_1_loc_pl", N_pl);
     ("cos_tilt_1_loc_g", N_g); ("cos_tilt_1_minimum_pl", N_pl);
     ("cos_tilt_1_minimum_g", N_g); ("cos_tilt_1_scale_pl", N_pl);
     ("cos_tilt_1_scale_g", N_g); ("cos_tilt_2_loc_pl", N_pl); ("cos_tilt_2_loc_g", N_g);
     ("cos_tilt_2_minimum_pl", N_pl); ("cos_tilt_2_minimum_g", N_g);
     ("cos_tilt_2_scale_pl", N_pl); ("cos_tilt_2_scale_g", N_g)] (* 277-295 *)
    else [])
    ++
    (if sf_eccentricity_mixture fl then
    [("eccentricity_comp1_high_g", N_g); ("eccentricity_comp1_high_pl", N_pl);
     ("eccentricity_comp1_loc_g", N_g); ("eccentricity_comp1_loc_pl", N_pl);
     ("eccentricity_comp1_low_g", N_g); ("eccentricity_comp1_low_pl", N_pl);
     ("eccentricity_comp1_scale_g", N_g); ("eccentricity_comp1_scale_pl", N_pl);
     ("eccentricity_comp2_high_g", N_g); ("eccentricity_comp2_high_pl", N_pl);
     ("eccentricity_comp2_loc_g", N_g); ("eccentricity_comp2_loc_pl", N_pl);
     ("eccentricity_comp2_low_g", N_g); ("eccentricity_comp2_low_pl", N_pl);
     ("eccentricity_comp2_scale_g", N_g); ("eccentricity_comp2_scale_pl", N_pl);
     ("eccentricity_zeta_g", N_g); ("eccentricity_zeta_pl", N_pl)] (* 297-319 *)
    else [])
    ++
    (if sf_redshift fl then
    [("redshift_kappa_g", N_g); ("redshift_kappa_pl", N_pl); ("redshift_z_max_g", N_g);
     ("redshift_z_max_pl", N_pl)] (* 321-329 *)
    else []))%list.
(** 331-337 *)
Definition scalars_o3 : list string := ["beta"; "delta_m"; "log_rate"; "mmax"; "mmin"].
(** all_params of model_parameters, gwkanal/o4_n_bpls_m_gs/sage.py:161-344; N_pl is N_bpl here *)
Definition all_params_o4 (fl : sflags) (N_pl N_g : nat) : list (string * nat) :=
  (
    ([("alpha1_bpl", N_pl); ("alpha2_bpl", N_pl); ("lambda", N_pl + N_g - 1);
     ("m1_high_g", N_g); ("m1_loc_g", N_g); ("m1_low_g", N_g); ("m1_scale_g", N_g);
     ("m1break_bpl", N_pl); ("m1max_bpl", N_pl); ("m1min_bpl", N_pl)] (* 162-173 *))
    ++
    (if sf_spin_magnitude_mixture fl then
    [("a_zeta_g", N_g); ("a_zeta_bpl", N_pl); ("a_1_comp1_high_g", N_g);
     ("a_1_comp1_high_bpl", N_pl); ("a_1_comp1_loc_g", N_g); ("a_1_comp1_loc_bpl", N_pl);
     ("a_1_comp1_low_g", N_g); ("a_1_comp1_low_bpl", N_pl); ("a_1_comp1_scale_g", N_g);
     ("a_1_comp1_scale_bpl", N_pl); ("a_1_comp2_high_g", N_g); ("a_1_comp2_high_bpl", N_pl);
     ("a_1_comp2_loc_g", N_g); ("a_1_comp2_loc_bpl", N_pl); ("a_1_comp2_low_g", N_g);
     ("a_1_comp2_low_bpl", N_pl); ("a_1_comp2_scale_g", N_g); ("a_1_comp2_scale_bpl", N_pl);
     ("a_2_comp1_high_g", N_g); ("a_2_comp1_high_bpl", N_pl); ("a_2_comp1_loc_g", N_g);
     ("a_2_comp1_loc_bpl", N_pl); ("a_2_comp1_low_g", N_g); ("a_2_comp1_low_bpl", N_pl);
     ("a_2_comp1_scale_g", N_g); ("a_2_comp1_scale_bpl", N_pl); ("a_2_comp2_high_g", N_g);
     ("a_2_comp2_high_bpl", N_pl); ("a_2_comp2_loc_g", N_g); ("a_2_comp2_loc_bpl", N_pl);
     ("a_2_comp2_low_g", N_g); ("a_2_comp2_low_bpl", N_pl); ("a_2_comp2_scale_g", N_g);
     ("a_2_comp2_scale_bpl", N_pl)] (* 175-213 *)
    else [])
    ++
    (if sf_beta_spin_magnitude fl then
    [("a_1_mean_g", N_g); ("a_1_mean_bpl", N_pl); ("a_1_variance_g", N_g);
     ("a_1_variance_bpl", N_pl); ("a_2_mean_g", N_g); ("a_2_mean_bpl", N_pl);
     ("a_2_variance_g", N_g); ("a_2_variance_bpl", N_pl)] (* 215-227 *)
    else [])
    ++
    (if sf_chi_eff_mixture fl then
    [("chi_eff_comp1_high_bpl", N_pl); ("chi_eff_comp1_high_g", N_g);
     ("chi_eff_comp1_loc_bpl", N_pl); ("chi_eff_comp1_loc_g", N_g);
     ("chi_eff_comp1_low_bpl", N_pl); ("chi_eff_comp1_low_g", N_g);
     ("chi_eff_comp1_scale_bpl", N_pl); ("chi_eff_comp1_scale_g", N_g);
     ("chi_eff_comp2_high_bpl", N_pl); ("chi_eff_comp2_high_g", N_g);
     ("chi_eff_comp2_loc_bpl", N_pl); ("chi_eff_comp2_loc_g", N_g);
     ("chi_eff_comp2_low_bpl", N_pl); ("chi_eff_comp2_low_g", N_g);
     ("chi_eff_comp2_scale_bpl", N_pl); ("chi_eff_comp2_scale_g", N_g);
     ("chi_eff_zeta_bpl", N_pl); ("chi_eff_zeta_g", N_g)] (* 229-251 *)
    else [])
    ++
    (if sf_skew_normal_chi_eff fl then
    [("chi_eff_epsilon_bpl", N_pl); ("chi_eff_epsilon_g", N_g); ("chi_eff_loc_bpl", N_pl);
     ("chi_eff_loc_g", N_g); ("chi_eff_scale_bpl", N_pl); ("chi_eff_scale_g", N_g)] (* 253-263 *)
    else [])
    ++
    (if sf_truncated_normal_chi_p fl then
    [("chi_p_high_g", N_g); ("chi_p_high_bpl", N_pl); ("chi_p_loc_g", N_g);
     ("chi_p_loc_bpl", N_pl); ("chi_p_low_g", N_g); ("chi_p_low_bpl", N_pl);
     ("chi_p_scale_g", N_g); ("chi_p_scale_bpl", N_pl)] (* 265-277 *)
    else [])
    ++
    (if sf_tilt fl then
    [("cos_tilt_zeta_g", N_g); ("cos_tilt_zeta_bpl", N_pl); ("cos_tilt_1_loc_bpl", N_pl);
     ("cos_tilt_1_loc_g", N_g); ("cos_tilt_1_minimum_bpl", N_pl);
     ("cos_tilt_1_minimum_g", N_g); ("cos_tilt_1_scale_bpl", N_pl);
     ("cos_tilt_1_scale_g", N_g); ("cos_tilt_2_loc_bpl", N_pl); ("cos_tilt_2_loc_g", N_g);
     ("cos_tilt_2_minimum_bpl", N_pl); ("cos_tilt_2_minimum_g", N_g);
     ("cos_tilt_2_scale_bpl", N_pl); ("cos_tilt_2_scale_g", N_g)] (* 279-297 *)
    else [])
    ++
    (if sf_eccentricity_mixture fl then
    [("eccentricity_comp1_high_bpl", N_pl); ("eccentricity_comp1_high_g", N_g);
     ("eccentricity_comp1_loc_bpl", N_pl); ("eccentricity_comp1_loc_g", N_g);
     ("eccentricity_comp1_low_bpl", N_pl); ("eccentricity_comp1_low_g", N_g);
     ("eccentricity_comp1_scale_bpl", N_pl); ("eccentricity_comp1_scale_g", N_g);
     ("eccentricity_comp2_high_bpl", N_pl); ("eccentricity_comp2_high_g", N_g);
     ("eccentricity_comp2_loc_bpl", N_pl); ("eccentricity_comp2_loc_g", N_g);
     ("eccentricity_comp2_low_bpl", N_pl); ("eccentricity_comp2_low_g", N_g);
     ("eccentricity_comp2_scale_bpl", N_pl); ("eccentricity_comp2_scale_g", N_g);
     ("eccentricity_zeta_bpl", N_pl); ("eccentricity_zeta_g", N_g)] (* 299-321 *)
    else [])
    ++
    (if sf_redshift fl then
    [("redshift_kappa_g", N_g); ("redshift_kappa_bpl", N_pl); ("redshift_z_max_g", N_g);
     ("redshift_z_max_bpl", N_pl)] (* 323-331 *)
    else []))%list.
(** 333-341 *)
Definition scalars_o4 : list string := ["beta"; "delta_m1"; "delta_m2"; "log_rate"; "m1max"; "m1min"; "m2min"].

Definition s_all_params (v : variant) := match v with O3 => all_params_o3 | O4 => all_params_o4 end.
Definition s_scalars (v : variant) := match v with O3 => scalars_o3 | O4 => scalars_o4 end.
(** model_parameters, o3 sage.py:160-340, o4 sage.py:160-344 *)
Definition s_model_parameters (v : variant) (fl : sflags) (N_pl N_g : nat) : list string :=
  (s_scalars v ++ flat_map (fun p => expand_arguments (fst p) (snd p)) (s_all_params v fl N_pl N_g))%list.

(** positive_concentration of where_fns_list, o3 and o4 sage.py:32-53.  [check] is
    check_min_concentration_for_beta_dist; it raises on the None that kwargs.get gives for an absent key *)
Definition positive_concentration {V} (check : V -> V -> bool) (v : variant) (N_pl N_g : nat)
  (kwargs : list (string * V)) : option bool :=
  let one_kind (ct : string) (n : nat) :=
      map_opt (fun i => match dget kwargs ("a_1_mean_" ++ ct ++ "_" ++ decimal i),
                              dget kwargs ("a_1_variance_" ++ ct ++ "_" ++ decimal i) with
                        | Some m, Some v => Some (check m v)
                        | _, _ => None
                        end) (seq 0 n) in
  match one_kind (match v with O3 => "pl" | O4 => "bpl" end) N_pl, one_kind "g" N_g with
  | Some a, Some b => Some (forallb (fun x => x) (a ++ b)%list)
  | _, _ => None
  end.
(** where_fns_list, o3 and o4 sage.py:25-56; None is no check at all *)
Definition s_where_fns_list {V} (check : V -> V -> bool) (v : variant) (fl : sflags)
  : option (list (nat -> nat -> list (string * V) -> option bool)) :=
  if sf_beta_spin_magnitude fl then Some [positive_concentration check v] else None.
(** the keys of constants, o3 and o4 sage.py:125-138 *)
Definition s_constant_names (v : variant) : list string :=
  [match v with O3 => "N_pl" | O4 => "N_bpl" end; "N_g"; "use_beta_spin_magnitude"; "use_spin_magnitude_mixture";
   "use_chi_eff_mixture"; "use_skew_normal_chi_eff"; "use_truncated_normal_chi_p"; "use_tilt";
   "use_eccentricity_mixture"; "use_redshift"].
