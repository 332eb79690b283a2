(** Vocabulary of the statements about the power law / Gaussian mixture. *)
From Coq Require Import String List Bool Arith.
From Verif Require Import Model_X Model_Joint Model_Guru Model_Config Spec_Config Model_NPLMG.
Import ListNotations.
Open Scope string_scope.
Open Scope nat_scope.

Section Spec.
Context {V : Type}.
Variables one zero : V.
Variable params : list (string * option V).

(** what the configuration says about hyper-parameter [name] of component [i]: the entry name_i, and
    if there is none the shared entry name; None if neither exists or if it is null *)
Definition given (name : string) (i : nat) : option V :=
  match dget params (numbered name i) with
  | Some v => v
  | None => match dget params name with Some v => v | None => None end
  end.

(** [d] is a distribution of the quantities [names], with the hyper-parameters that the
    configuration gives to them for component [i] of type [ct] ("pl" or "g") *)
Definition expected (ct : string) (i : nat) (d : dist V) (names : list string) : Prop :=
  let h q what := given (q ++ "_" ++ what ++ "_" ++ ct) i in
  let h_or q what dflt := match h q what with Some v => Some v | None => Some dflt end in
  match d_kind d with
  | KBetaFromMeanVar =>
    exists q, names = [q] /\ d_args d = [("mean", [h q "mean"]); ("variance", [h q "variance"])]
  | KTruncatedNormal =>
    exists q, names = [q] /\
    let p := if q =? "mass_1_source" then "m1" else if q =? "mass_2_source" then "m2" else q in
    d_args d = [("loc", [h p "loc"]); ("scale", [h p "scale"]); ("low", [h p "low"]); ("high", [h p "high"])]
  | KUniform =>
    exists q, names = [q] /\ d_args d = [("low", [h q "low"]); ("high", [h q "high"])]
  | KTwoTruncatedNormalMixture =>
    exists q, names = [q] /\
    d_args d = [("comp1_high", [h q "comp1_high"]); ("comp1_loc", [h q "comp1_loc"]);
                ("comp1_low", [h q "comp1_low"]); ("comp2_high", [h q "comp2_high"]);
                ("comp2_loc", [h q "comp2_loc"]); ("comp2_low", [h q "comp2_low"]);
                ("comp1_scale", [h q "comp1_scale"]); ("comp2_scale", [h q "comp2_scale"]);
                ("zeta", [h q "zeta"])]
  | KNDTwoTruncatedNormalMixture =>
    names = ["a_1"; "a_2"] /\
    let both what := [h "a_1" what; h "a_2" what] in
    let both_or what dflt := [h_or "a_1" what dflt; h_or "a_2" what dflt] in
    d_args d = [("zeta", [h "a" "zeta"]);
                ("comp1_high", both_or "comp1_high" one); ("comp1_loc", both "comp1_loc");
                ("comp1_low", both_or "comp1_low" zero); ("comp1_scale", both "comp1_scale");
                ("comp2_high", both_or "comp2_high" one); ("comp2_loc", both "comp2_loc");
                ("comp2_low", both_or "comp2_low" zero); ("comp2_scale", both "comp2_scale")]
  | KIndependentSpinOrientation =>
    names = ["cos_tilt_1"; "cos_tilt_2"] /\
    d_args d = [("zeta", [h "cos_tilt" "zeta"]); ("scale", [h "cos_tilt_1" "scale"; h "cos_tilt_2" "scale"])]
  | KSkewNormal =>
    exists q, names = [q] /\
    d_args d = [("loc", [h q "loc"]); ("scale", [h q "scale"]); ("epsilon", [h q "epsilon"])]
  | KPowerlawRedshift =>
    exists q, names = [q] /\ d_args d = [("kappa", [h q "kappa"]); ("z_max", [h q "z_max"])]
  | KPowerlawPrimaryMassRatio =>
    names = ["mass_1_source"; "mass_2_source"] /\ ct = "pl" /\
    d_args d = [("alpha", [given "alpha_pl" i]); ("beta", [given "beta_pl" i]);
                ("mmin", [given "mmin_pl" i]); ("mmax", [given "mmax_pl" i])]
  | KMinimumTilt | KPowerlaw | KBrokenPowerlaw => False (* not used by this model, see Spec_Smoothed *)
  end%string.
End Spec.

(** number of coordinates of an event under one component *)
Definition dimension {V} (component : list (dist V)) : nat :=
  list_sum (map (fun d => event_dim (d_kind d)) component).
(** the hyper-parameters [v] that a distribution, or the rates, were built with *)
Definition reaches {V} (v : V) (m : mixture V) : Prop :=
  In v (log_rates m)
  \/ exists c d a, In c (components m) /\ In d c /\ In a (d_args d) /\ In (Some v) (snd a).
(** type and number of the k-th component *)
Definition component_type (N_pl k : nat) : string := if k <? N_pl then "pl" else "g".
Definition component_number (N_pl k : nat) : nat := if k <? N_pl then k else k - N_pl.

(** the features that exclude each other on the command line *)
Definition compatible (fl : flags) : Prop :=
  has_beta_spin_magnitude fl && use_spin_magnitude_mixture fl = false
  /\ use_chi_eff_mixture fl && use_skew_normal_chi_eff fl = false.

(** hyper-parameters that are asked for and never used: the location and scale of the angles, whose
    distributions are uniform *)
Definition unread : list string :=
  flat_map (fun q => flat_map (fun w => [q ++ "_" ++ w ++ "_pl"; q ++ "_" ++ w ++ "_g"]%string) ["loc"; "scale"])
           ["phi_12"; "ra"; "dec"; "cos_iota"; "psi"].
