(** Vocabulary of the statements about the two smoothed mass models. *)
From Coq Require Import String List Bool Arith.
From Verif Require Import Model_X Model_Joint Model_Guru Model_Config Spec_Config Model_NPLMG Spec_NPLMG
  Model_Smoothed.
Import ListNotations.
Open Scope string_scope.
Open Scope nat_scope.

Section Spec.
Context {V : Type}.
Variables one zero minus_one : V.
Variable params : list (string * option V).

(** [d] is a distribution of the quantities [names], with the hyper-parameters that the
    configuration gives to them for component [i] of type [ct] ("pl", "bpl" or "g"): as in
    Spec_NPLMG, with the three classes that only these models use *)
Definition s_expected (ct : string) (i : nat) (d : dist V) (names : list string) : Prop :=
  let h q what := given params (q ++ "_" ++ what ++ "_" ++ ct) i in
  let h_or q what dflt := match h q what with Some v => Some v | None => Some dflt end in
  match d_kind d with
  | KMinimumTilt =>
    names = ["cos_tilt_1"; "cos_tilt_2"] /\
    d_args d = [("zeta", [h "cos_tilt" "zeta"]);
                ("loc1", [h "cos_tilt_1" "loc"]); ("loc2", [h "cos_tilt_2" "loc"]);
                ("scale1", [h "cos_tilt_1" "scale"]); ("scale2", [h "cos_tilt_2" "scale"]);
                ("minimum1", [h_or "cos_tilt_1" "minimum" minus_one]);
                ("minimum2", [h_or "cos_tilt_2" "minimum" minus_one])]
  | KPowerlaw =>
    names = ["mass_1_source"] /\ ct = "pl" /\
    d_args d = [("alpha", [given params "alpha_pl" i]); ("low", [given params "mmin_pl" i]);
                ("high", [given params "mmax_pl" i])]
  | KBrokenPowerlaw =>
    names = ["mass_1_source"] /\ ct = "bpl" /\
    d_args d = [("alpha1", [given params "alpha1_bpl" i]); ("alpha2", [given params "alpha2_bpl" i]);
                ("mbreak", [given params "m1break_bpl" i]); ("mmax", [given params "m1max_bpl" i]);
                ("mmin", [given params "m1min_bpl" i])]
  | _ => expected one zero params ct i d names
  end%string.
End Spec.

(** type of the k-th component *)
Definition s_component_type (v : variant) (N_pl k : nat) : string :=
  if k <? N_pl then match v with O3 => "pl" | O4 => "bpl" end else "g".
(** the class of the distribution of the primary mass of the k-th component *)
Definition mass_kind (v : variant) (N_pl k : nat) : kind :=
  if k <? N_pl then match v with O3 => KPowerlaw | O4 => KBrokenPowerlaw end else KTruncatedNormal.

(** the name of the hyper-parameter behind each scalar of the model *)
Definition scalar_sources {V} (v : variant) (m : smoothed V) : list (string * V) :=
  match v with
  | O3 => [("beta", s_beta m); ("delta_m", s_delta_m1 m); ("delta_m", s_delta_m2 m); ("log_rate", s_log_rate m);
           ("mmax", s_m1max m); ("mmin", s_m1min m); ("mmin", s_m2min m)]
  | O4 => [("beta", s_beta m); ("delta_m1", s_delta_m1 m); ("delta_m2", s_delta_m2 m); ("log_rate", s_log_rate m);
           ("m1max", s_m1max m); ("m1min", s_m1min m); ("m2min", s_m2min m)]
  end.
(** the hyper-parameter [v] is part of the model *)
Definition s_reaches {V} (v : V) (m : smoothed V) : Prop :=
  In v [s_beta m; s_delta_m1 m; s_delta_m2 m; s_log_rate m; s_m1max m; s_m1min m; s_m2min m]
  \/ In v (s_lambdas m)
  \/ exists c d a, In c (s_components m) /\ In d c /\ In a (d_args d) /\ In (Some v) (snd a).

(** the features that exclude each other on the command line, sage.py:357-382 *)
Definition s_compatible (fl : sflags) : Prop :=
  sf_beta_spin_magnitude fl && sf_spin_magnitude_mixture fl = false
  /\ sf_chi_eff_mixture fl && sf_skew_normal_chi_eff fl = false.
