(** Model of BrokenPowerlawTwoPeakMultiSpinMultiTiltFull, gwkokab/models/hybrids/_bp2pmultispinfull.py:745-843.
    Parameters and coordinates of events are finite numbers, as in Model_Hybrid.v. *)
From Coq Require Import String Reals List Bool.
From Verif Require Import Model_X Model_Guru Model_Constraints Model_Joint Model_Mass Model_MultiSpin Model_Hybrid.
Import ListNotations.
Open Scope R_scope.

Definition on6 (f : R -> R -> R -> R -> R -> R -> X) (v : list X) : X :=
  match v with [Fin m1; Fin q; Fin a1; Fin a2; Fin t1; Fin t2] => f m1 q a1 a2 t1 t2 | _ => NaN end.
Definition holds6 (p : R -> R -> R -> R -> R -> R -> bool) (v : list X) : bool :=
  match v with [Fin m1; Fin q; Fin a1; Fin a2; Fin t1; Fin t2] => p m1 q a1 a2 t1 t2 | _ => false end.

Section MultiSpinFull.
Context {K : Type}.
Variable draw : K -> list X.
Variable validate : bool.
(** BrokenPowerlawTwoPeakMultiSpinMultiTilt (Model_MultiSpin.v), whose log_prob checks the support itself *)
Definition multi_spin_leaf alpha1 alpha2 beta loc1 loc2 scale1 scale2 delta_m1 delta_m2 lambda_0 lambda_1
    m1min m2min mmax mbreak bpl1 bpl2 n1 n2 : dist K :=
  Leaf (Some 6%nat)
    (on6 (ms_log_prob alpha1 alpha2 beta loc1 loc2 scale1 scale2 delta_m1 delta_m2 lambda_0 lambda_1
            m1min m2min mmax mbreak bpl1 bpl2 n1 n2 validate))
    (holds6 (ms_support m2min mmax bpl1 bpl2 n1 n2)) draw.
(** the keyword arguments of one component of the mass spectrum *)
Definition spin_arguments (ps : params) (names : list string) : option spin_comp :=
  match gets ps names with
  | Some [a1l; a1s; a1lo; a1hi; a2l; a2s; a2lo; a2hi; zeta; t1l; t1s; t2l; t2s] =>
    Some (mkspin a1l a1s a1lo a1hi a2l a2s a2lo a2hi zeta t1l t1s t2l t2s)
  | _ => None
  end.
Variables c Ho Om Or Ol max_z dz : R.
Variable use_eccentricity : bool.
Definition multi_spin_full (ps : params) : option (list component) :=
  and_then (match gets ps ["alpha1"; "alpha2"; "beta"; "loc1"; "loc2"; "scale1"; "scale2"; "delta_m1"; "delta_m2";
                           "lambda_0"; "lambda_1"; "m1min"; "m2min"; "mmax"; "mbreak"]%string with
            | Some [alpha1; alpha2; beta; loc1; loc2; scale1; scale2; delta_m1; delta_m2; lambda_0; lambda_1;
                    m1min; m2min; mmax; mbreak] =>
              Some (multi_spin_leaf alpha1 alpha2 beta loc1 loc2 scale1 scale2 delta_m1 delta_m2 lambda_0 lambda_1
                      m1min m2min mmax mbreak)
            | _ => None end) (fun smoothing_model =>
  and_then (spin_arguments ps ["a_1_loc_bpl1"; "a_1_scale_bpl1"; "a_1_low_bpl1"; "a_1_high_bpl1";
                               "a_2_loc_bpl1"; "a_2_scale_bpl1"; "a_2_low_bpl1"; "a_2_high_bpl1"; "cos_tilt_zeta_bpl1";
                               "cos_tilt_1_loc_bpl1"; "cos_tilt_1_scale_bpl1"; "cos_tilt_2_loc_bpl1"; "cos_tilt_2_scale_bpl1"]%string) (fun bpl1 =>
  and_then (spin_arguments ps ["a_1_loc_bpl2"; "a_1_scale_bpl2"; "a_1_low_bpl2"; "a_1_high_bpl2";
                               "a_2_loc_bpl2"; "a_2_scale_bpl2"; "a_2_low_bpl2"; "a_2_high_bpl2"; "cos_tilt_zeta_bpl2";
                               "cos_tilt_1_loc_bpl2"; "cos_tilt_1_scale_bpl2"; "cos_tilt_2_loc_bpl2"; "cos_tilt_2_scale_bpl2"]%string) (fun bpl2 =>
  and_then (spin_arguments ps ["a_1_loc_n1"; "a_1_scale_n1"; "a_1_low_n1"; "a_1_high_n1";
                               "a_2_loc_n1"; "a_2_scale_n1"; "a_2_low_n1"; "a_2_high_n1"; "cos_tilt_zeta_n1";
                               "cos_tilt_1_loc_n1"; "cos_tilt_1_scale_n1"; "cos_tilt_2_loc_n1"; "cos_tilt_2_scale_n1"]%string) (fun n1 =>
  and_then (spin_arguments ps ["a_1_loc_n2"; "a_1_scale_n2"; "a_1_low_n2"; "a_1_high_n2";
                               "a_2_loc_n2"; "a_2_scale_n2"; "a_2_low_n2"; "a_2_high_n2"; "cos_tilt_zeta_n2";
                               "cos_tilt_1_loc_n2"; "cos_tilt_1_scale_n2"; "cos_tilt_2_loc_n2"; "cos_tilt_2_scale_n2"]%string) (fun n2 =>
  and_then (block use_eccentricity (match gets ps ["eccentricity_scale"]%string with
            | Some [scale] => Some (half_normal_leaf draw validate scale)
            | _ => None end)) (fun ecc =>
  and_then (match gets ps ["z_max"; "kappa"]%string with
            | Some [z_max; kappa] => Some (redshift_leaf draw validate c Ho Om Or Ol max_z dz z_max kappa)
            | _ => None end) (fun powerlaw_z =>
  and_then (dget ps "log_rate"%string) (fun log_rate =>
  Some (mixture_of validate log_rate (Joint ([smoothing_model bpl1 bpl2 n1 n2] ++ ecc ++ [powerlaw_z]) None)))))))))).
End MultiSpinFull.
